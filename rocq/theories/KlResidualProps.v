(** The two residuals of the Kullback-Leibler data term (src/corrct/data_terms.py:720-739), C216. *)
From Coq Require Import Reals Lra Lia List.
Import ListNotations.
From Verif Require Import Sums DataTermsModel.
Open Scope R_scope.

(** * Specification *)
(** expected counts in a pixel: projection plus background, kept at least the float32 epsilon *)
Definition expected (bg : option vec) (proj : vec) (i : nat) : R :=
  Rmax (match bg with Some g => proj i + g i | None => proj i end) (/ 2 ^ 23).
(** measured counts: negative ones count as none *)
Definition counts (b : vec) (i : nat) : R := Rmax (b i) 0.
(** the Poisson cost of expecting q when c were counted, up to a constant *)
Definition poisson_cost (c q : R) : R := q - c * ln q.
(** weight of a pixel in the mask *)
Definition kept (mask : option vec) (i : nat) : R := match mask with Some m => m i | None => 1 end.

(** * helper lemmas *)
Lemma eps_pos : 0 < / 2 ^ 23.
Proof. apply Rinv_0_lt_compat, pow_lt. lra. Qed.
Lemma expected_pos bg proj i : 0 < expected bg proj i.
Proof. unfold expected. eapply Rlt_le_trans; [apply eps_pos|apply Rmax_r]. Qed.
Lemma plain_value : forall t b sigma proj mask i,
  compute_residual_KL_plain (assign_data t (Some b) sigma) proj mask i =
  - ((1 - counts b i / expected (dt_background t) proj i) * kept mask i).
Proof.
  intros. unfold compute_residual_KL_plain, add_background, apply_mask, assign_data, expected, counts, kept, np_fmax, eps32. cbn [dt_data dt_background].
  destruct (dt_background t); destruct mask; try reflexivity;
    match goal with |- _ = - (?a * 1) => rewrite (Rmult_1_r a) end; reflexivity.
Qed.
Lemma default_value : forall t b sigma proj mask i, dt_kind t = K_KL ->
  let d := expected (dt_background t) proj i * sigma i in
  compute_residual (assign_data t (Some b) sigma) proj mask i =
  - ((1 + d - sqrt ((d - 1) ^ 2 + 4 * sigma i * counts b i)) / 2 * kept mask i).
Proof.
  intros t b sigma proj mask i K d.
  unfold compute_residual, assign_data, add_background, proximal_dual. cbn [dt_kind dt_background dt_data dt_sigma dt_sigma_data]. rewrite K.
  assert (F : forall q k, - ((1 + Rmax (Rmax q eps32) eps32 * sigma i - sqrt ((Rmax (Rmax q eps32) eps32 * sigma i - 1) ^ 2 + 4 * sigma i * Rmax (b i) 0)) / 2 * k) =
    - ((1 + Rmax q eps32 * sigma i - sqrt ((Rmax q eps32 * sigma i - 1) ^ 2 + 4 * sigma i * Rmax (b i) 0)) / 2 * k)).
  { intros q k. rewrite (Rmax_left (Rmax q eps32) eps32) by apply Rmax_r. reflexivity. }
  unfold d, expected, counts, kept, np_fmax in *. fold eps32.
  destruct (dt_background t) as [bg|]; destruct mask as [m|]; cbn [apply_mask]; rewrite <- F; try reflexivity;
    match goal with |- _ = - (?a * 1) => rewrite (Rmult_1_r a) end; reflexivity.
Qed.

(** * C216 *)
(** use_proximal=False: minus the derivative of the Poisson cost with respect to the projection *)
Theorem C216_gradient : forall t b sigma proj mask i, 
  / 2 ^ 23 < match dt_background t with Some g => proj i + g i | None => proj i end ->
  exists d, derivable_pt_lim (fun q => poisson_cost (counts b i) (match dt_background t with Some g => q + g i | None => q end)) (proj i) d /\
    compute_residual_KL_plain (assign_data t (Some b) sigma) proj mask i = - d * kept mask i.
Proof.
  intros t b sigma proj mask i He. set (o := match dt_background t with Some g => g i | None => 0 end).
  assert (Ho : forall q, match dt_background t with Some g => q + g i | None => q end = q + o).
  { intros q. unfold o. destruct (dt_background t); ring. }
  rewrite Ho in He. assert (Hp : 0 < proj i + o) by (pose proof eps_pos; lra).
  exists (1 - counts b i / (proj i + o)). split.
  - replace (1 - counts b i / (proj i + o)) with (1 - counts b i * / (proj i + o) * 1) by (field; lra).
    eapply (derivable_pt_lim_ext (fun q => (q + o) - counts b i * ln (q + o))).
    { intros q. unfold poisson_cost. rewrite Ho. reflexivity. }
    assert (A : derivable_pt_lim (fun q => q + o) (proj i) 1).
    { replace 1 with (1 + 0) at 1 by ring. apply (derivable_pt_lim_plus id (fun _ => o)); [apply derivable_pt_lim_id|apply derivable_pt_lim_const]. }
    assert (L : derivable_pt_lim (fun q => ln (q + o)) (proj i) (/ (proj i + o) * 1)).
    { apply (derivable_pt_lim_comp (fun q => q + o) ln); [exact A|apply derivable_pt_lim_ln; exact Hp]. }
    apply (derivable_pt_lim_minus (fun q => q + o) (fun q => counts b i * ln (q + o))); [exact A|].
    replace (counts b i * / (proj i + o) * 1) with (counts b i * (/ (proj i + o) * 1)) by ring.
    apply (derivable_pt_lim_scal (fun q => ln (q + o))). exact L.
  - rewrite plain_value. unfold expected. rewrite Ho, Rmax_left by lra. ring.
Qed.
(** both residuals point the same way: up where more was counted than expected, down where less, zero where they agree *)
Theorem C216_same_sign : forall t b sigma proj i, dt_kind t = K_KL -> 0 < sigma i ->
  let r0 := compute_residual_KL_plain (assign_data t (Some b) sigma) proj None i in
  let r1 := compute_residual (assign_data t (Some b) sigma) proj None i in
  (0 < r0 <-> expected (dt_background t) proj i < counts b i) /\ (0 < r1 <-> expected (dt_background t) proj i < counts b i) /\
  (r0 = 0 <-> expected (dt_background t) proj i = counts b i) /\ (r1 = 0 <-> expected (dt_background t) proj i = counts b i).
Proof.
  intros t b sigma proj i K Hs r0 r1. pose proof (expected_pos (dt_background t) proj i) as Hp.
  assert (Hc : 0 <= counts b i) by (unfold counts; apply Rmax_r).
  assert (E0 : r0 = (counts b i - expected (dt_background t) proj i) / expected (dt_background t) proj i).
  { unfold r0. rewrite plain_value. cbn [kept]. field. lra. }
  assert (E1 : r1 = (sqrt ((expected (dt_background t) proj i * sigma i - 1) ^ 2 + 4 * sigma i * counts b i) - (1 + expected (dt_background t) proj i * sigma i)) / 2).
  { unfold r1. rewrite default_value by exact K. cbn [kept]. field. }
  set (p := expected (dt_background t) proj i) in *. set (c := counts b i) in *. set (s := sigma i) in *.
  assert (Hd : 0 < p * s) by nra.
  assert (Q : (1 + p * s) ^ 2 + 4 * s * (c - p) = (p * s - 1) ^ 2 + 4 * s * c) by ring.
  assert (S1 : sqrt ((1 + p * s) ^ 2) = 1 + p * s) by (apply sqrt_pow2; nra).
  assert (Hsc : 0 <= s * c) by (apply Rmult_le_pos; lra).
  assert (Hq : 0 <= (p * s - 1) ^ 2 + 4 * s * c) by (pose proof (pow2_ge_0 (p * s - 1)); lra).
  assert (Hq2 : 0 <= (1 + p * s) ^ 2) by apply pow2_ge_0.
  assert (T : (p < c -> 0 < r1) /\ (p = c -> r1 = 0) /\ (c < p -> r1 < 0)).
  { rewrite E1. split; [|split]; intros H.
    - assert (sqrt ((1 + p * s) ^ 2) < sqrt ((p * s - 1) ^ 2 + 4 * s * c)) by (apply sqrt_lt_1; [exact Hq2|exact Hq|]; assert (0 < s * (c - p)) by (apply Rmult_lt_0_compat; lra); lra). lra.
    - replace ((p * s - 1) ^ 2 + 4 * s * c) with ((1 + p * s) ^ 2) by (rewrite <- Q, H; ring). rewrite S1. lra.
    - assert (sqrt ((p * s - 1) ^ 2 + 4 * s * c) < sqrt ((1 + p * s) ^ 2)) by (apply sqrt_lt_1; [exact Hq|exact Hq2|]; assert (0 < s * (p - c)) by (apply Rmult_lt_0_compat; lra); lra). lra. }
  assert (U : (p < c -> 0 < r0) /\ (p = c -> r0 = 0) /\ (c < p -> r0 < 0)).
  { rewrite E0. assert (I : 0 < / p) by (apply Rinv_0_lt_compat; exact Hp). unfold Rdiv. split; [|split]; intros H; [nra| |nra].
    rewrite H. ring. }
  destruct T as [T1 [T2 T3]]. destruct U as [U1 [U2 U3]].
  destruct (Rtotal_order p c) as [H|[H|H]].
  - specialize (T1 H). specialize (U1 H). repeat split; intros; lra.
  - specialize (T2 H). specialize (U2 H). repeat split; intros; lra.
  - specialize (T3 H). specialize (U3 H). repeat split; intros; lra.
Qed.
(** the default residual stays between -1 and sqrt(sigma * counts), whatever the projection *)
Theorem C216_default_bounded : forall t b sigma proj i, dt_kind t = K_KL -> 0 < sigma i ->
  -1 <= compute_residual (assign_data t (Some b) sigma) proj None i <= sqrt (sigma i * counts b i).
Proof.
  intros t b sigma proj i K Hs. rewrite default_value by exact K. cbn [kept].
  pose proof (expected_pos (dt_background t) proj i) as Hp. assert (Hc : 0 <= counts b i) by (unfold counts; apply Rmax_r).
  set (d := expected (dt_background t) proj i * sigma i). assert (Hd : 0 < d) by (unfold d; nra).
  set (c := counts b i) in *. set (s := sigma i) in *.
  assert (Hq : 0 <= s * c) by nra. pose proof (sqrt_pos (s * c)) as P. pose proof (sqrt_sqrt _ Hq) as PP.
  assert (L : Rabs (d - 1) <= sqrt ((d - 1) ^ 2 + 4 * s * c)).
  { rewrite <- (sqrt_Rsqr_abs (d - 1)). apply sqrt_le_1_alt. unfold Rsqr. lra. }
  assert (M : sqrt ((d - 1) ^ 2 + 4 * s * c) <= Rabs (d - 1) + 2 * sqrt (s * c)).
  { pose proof (Rabs_pos (d - 1)) as A. rewrite <- (sqrt_pow2 (Rabs (d - 1) + 2 * sqrt (s * c))) by lra.
    apply sqrt_le_1_alt. rewrite <- (pow2_abs (d - 1)). assert (0 <= Rabs (d - 1) * sqrt (s * c)) by (apply Rmult_le_pos; assumption).
    replace (4 * s * c) with (4 * (sqrt (s * c) * sqrt (s * c))) by (rewrite PP; ring). lra. }
  pose proof (Rle_abs (d - 1)) as A1. pose proof (Rle_abs (- (d - 1))) as A2. rewrite Rabs_Ropp in A2.
  remember (sqrt ((d - 1) ^ 2 + 4 * s * c)) as Q0. remember (sqrt (s * c)) as q0. remember (Rabs (d - 1)) as a0 eqn:Ea.
  assert (Hm : a0 = d - 1 \/ a0 = - (d - 1)).
  { rewrite Ea. unfold Rabs. destruct (Rcase_abs (d - 1)); auto. }
  clear -L M A1 A2 Hm P Hd. split; [lra|]. destruct Hm; lra.
Qed.
(** masked pixels contribute nothing, and without data the plain residual is minus the mask *)
Theorem C216_mask : forall t b sigma proj m i, dt_kind t = K_KL -> m i = 0 ->
  compute_residual_KL_plain (assign_data t (Some b) sigma) proj (Some m) i = 0 /\
  compute_residual (assign_data t (Some b) sigma) proj (Some m) i = 0.
Proof.
  intros t b sigma proj m i K H. split; [rewrite plain_value|rewrite default_value by exact K]; cbn [kept]; rewrite H; ring.
Qed.
Theorem C216_no_data : forall t sigma proj mask i,
  compute_residual_KL_plain (assign_data t None sigma) proj mask i = - kept mask i.
Proof. intros. unfold compute_residual_KL_plain, assign_data, apply_mask, kept. cbn. destruct mask; ring. Qed.
(** at a projection of at most epsilon the plain residual is counts / epsilon - 1 (not an infinity) *)
Theorem C216_at_zero : forall t b sigma proj i, dt_background t = None -> proj i <= / 2 ^ 23 ->
  compute_residual_KL_plain (assign_data t (Some b) sigma) proj None i = counts b i * 2 ^ 23 - 1.
Proof.
  intros t b sigma proj i Hb H. rewrite plain_value. unfold expected. rewrite Hb, Rmax_right by exact H. cbn [kept].
  field.
Qed.
(** concrete: one count where two are expected *)
Theorem C216_example : forall sigma, 0 < sigma 0%nat ->
  let t := new_dterm K_KL None in
  compute_residual_KL_plain (assign_data t (Some (fun _ => 1)) sigma) (fun _ => 2) None 0%nat = - (1 / 2) /\
  compute_residual (assign_data t (Some (fun _ => 1)) sigma) (fun _ => 2) None 0%nat < 0.
Proof.
  intros sigma Hs t.
  assert (E : expected (dt_background t) (fun _ => 2) 0%nat = 2).
  { unfold expected, t. cbn [dt_background new_dterm]. apply Rmax_left.
    assert (1 < 2 ^ 23) by (apply Rlt_pow_R1; [lra|lia]).
    apply Rle_trans with 1; [|lra]. rewrite <- Rinv_1. apply Rinv_le_contravar; lra. }
  assert (C : counts (fun _ => 1) 0%nat = 1) by (unfold counts; apply Rmax_left; lra).
  destruct (C216_same_sign t (fun _ => 1) sigma (fun _ => 2) 0%nat eq_refl Hs) as [_ [H1 [_ H2]]]. rewrite E, C in *.
  split; [rewrite plain_value, E, C; cbn [kept]; lra|].
  destruct (Rtotal_order (compute_residual (assign_data t (Some (fun _ => 1)) sigma) (fun _ => 2) None 0%nat) 0) as [H|[H|H]]; [exact H| |].
  - apply H2 in H. lra.
  - apply Rgt_lt in H. apply H1 in H. lra.
Qed.
