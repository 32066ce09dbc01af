(** Lemmas about the data-term model. *)
From Verif Require Import Sums Convex DataTermsSpec DataTermsModel.

(** * Scalar facts *)
Lemma soft_cases v thr : 0 <= thr ->
  (Rabs v <= thr /\ soft_threshold1 v thr = 0) \/
  (thr < v /\ soft_threshold1 v thr = v - thr) \/
  (v < - thr /\ soft_threshold1 v thr = v + thr).
Proof.
  intros Ht. unfold soft_threshold1, np_sign, np_fmax.
  destruct (Rlt_dec 0 v) as [H|H].
  - rewrite (Rabs_right v) by lra.
    destruct (Rle_lt_dec v thr).
    + left. rewrite Rmax_right by lra. split; [lra|ring].
    + right; left. rewrite Rmax_left by lra. split; [lra|ring].
  - destruct (Rlt_dec v 0) as [H'|H'].
    + rewrite (Rabs_left v) by lra. destruct (Rle_lt_dec (- v) thr).
      * left. rewrite Rmax_right by lra. split; [lra|ring].
      * right; right. rewrite Rmax_left by lra. split; [lra|ring].
    + left. replace v with 0 by lra. rewrite Rabs_R0. split; [lra|ring].
Qed.

Lemma clip_cases d w : 0 < w ->
  (Rabs d <= w /\ d / np_fmax (Rabs d) w * w = d) \/
  (w < d /\ d / np_fmax (Rabs d) w * w = w) \/
  (d < - w /\ d / np_fmax (Rabs d) w * w = - w).
Proof.
  intros Hw. unfold np_fmax. destruct (Rle_lt_dec (Rabs d) w) as [H|H].
  - left. rewrite Rmax_right by lra. split; [lra|field; lra].
  - right. rewrite Rmax_left by lra. unfold Rabs in *. destruct (Rcase_abs d).
    + right. split; [lra|field; lra].
    + left. split; [lra|field; lra].
Qed.

(** * Quadratic terms *)
Lemma wl2_subgrad w b x : 0 <= w ->
  subgrad (total (fun x => w * (x - b) ^ 2 / 2)) x (w * (x - b)).
Proof. intros Hw. split; [exact I|]. intros y _. simpl. assert (0 <= w * (y - x) ^ 2) by (apply Rmult_le_pos; [lra|apply pow2_ge_0]). nra. Qed.

Lemma abs_subgrad w b x p : Rabs p <= w -> p * (x - b) = w * Rabs (x - b) ->
  subgrad (total (fun x => w * Rabs (x - b))) x p.
Proof.
  intros Hp He. split; [exact I|]. intros y _. simpl.
  assert (p * (y - b) <= w * Rabs (y - b)).
  { eapply Rle_trans; [apply Rle_abs|]. rewrite Rabs_mult.
    apply Rmult_le_compat_r; [apply Rabs_pos|exact Hp]. }
  lra.
Qed.

(** * Shifts by a background *)
Lemma conj_shift f bg q w : conj_val (shift f bg) q w <-> conj_val f q (w + q * bg).
Proof.
  split; intros [Hu Hl]; split.
  - intros r [x [Hx ->]]. specialize (Hu ((x - bg) * q - val f x)).
    assert (H : (x - bg) * q - val f x <= w).
    { apply Hu. exists (x - bg). simpl. replace (x - bg + bg) with x by ring. auto. }
    lra.
  - intros b Hb. specialize (Hl (b - q * bg)).
    assert (H : w <= b - q * bg).
    { apply Hl. intros r [x [Hx ->]]. simpl in *.
      specialize (Hb ((x + bg) * q - val f (x + bg))).
      assert ((x + bg) * q - val f (x + bg) <= b) by (apply Hb; exists (x + bg); auto). lra. }
    lra.
  - intros r [x [Hx ->]]. simpl in *. specialize (Hu ((x + bg) * q - val f (x + bg))).
    assert ((x + bg) * q - val f (x + bg) <= w + q * bg) by (apply Hu; exists (x + bg); auto). lra.
  - intros b Hb. specialize (Hl (b + q * bg)).
    assert (w + q * bg <= b + q * bg).
    { apply Hl. intros r [x [Hx ->]]. specialize (Hb ((x - bg) * q - val f x)).
      assert ((x - bg) * q - val f x <= b).
      { apply Hb. exists (x - bg). simpl. replace (x - bg + bg) with x by ring. auto. }
      lra. }
    lra.
Qed.

Lemma prox_conj_shift sigma f bg d p :
  is_prox_conj sigma f (d + sigma * bg) p -> is_prox_conj sigma (shift f bg) d p.
Proof.
  intros [v [Hv Hm]]. exists (v - p * bg). split.
  - apply conj_shift. replace (v - p * bg + p * bg) with v by ring. exact Hv.
  - intros q w Hw Hne. apply conj_shift in Hw. specialize (Hm q _ Hw Hne). nra.
Qed.

(** * l2 / wl2 *)
Lemma l2_dual_prox sigma b d : 0 < sigma ->
  is_prox_conj sigma (total (fun x => (x - b) ^ 2 / 2)) d ((d - sigma * b) * (1 / (1 + sigma))).
Proof.
  intros Hs. apply subgrad_prox_conj; [exact Hs|].
  set (p := (d - sigma * b) * (1 / (1 + sigma))).
  assert (E : p = (d - p) / sigma - b) by (unfold p; field; lra).
  split; [exact I|]. intros y _. cbn [val total]. rewrite E at 2. 
  set (x := (d - p) / sigma). pose proof (pow2_ge_0 (y - x)). nra.
Qed.

Lemma l2_primal_prox tau b z : 0 < tau ->
  is_prox tau (total (fun x => (x - b) ^ 2 / 2)) z ((z + tau * b) / (1 + tau)).
Proof.
  intros Ht. apply subgrad_prox; [exact Ht|]. set (p := (z + tau * b) / (1 + tau)).
  replace ((z - p) / tau) with (p - b) by (unfold p; field; lra).
  split; [exact I|]. intros y _. cbn [val total]. pose proof (pow2_ge_0 (y - p)). nra.
Qed.

Lemma wl2_dual_prox sigma w b d : 0 < sigma -> 0 < w ->
  is_prox_conj sigma (total (fun x => w * (x - b) ^ 2 / 2)) d
    ((d - sigma * b) * (1 / (1 + sigma / w))).
Proof.
  intros Hs Hw. apply subgrad_prox_conj; [exact Hs|].
  set (p := (d - sigma * b) * (1 / (1 + sigma / w))).
  replace p with (w * ((d - p) / sigma - b)) at 2.
  - apply wl2_subgrad. lra.
  - unfold p. field. split; [lra|]. split; [lra|]. nra.
Qed.

Lemma wl2_primal_prox tau w b z : 0 < tau -> 0 <= w ->
  is_prox tau (total (fun x => w * (x - b) ^ 2 / 2)) z ((z + tau * w * b) / (1 + tau * w)).
Proof.
  intros Ht Hw. apply subgrad_prox; [exact Ht|]. set (p := (z + tau * w * b) / (1 + tau * w)).
  replace ((z - p) / tau) with (w * (p - b)).
  - apply wl2_subgrad; exact Hw.
  - unfold p. field. assert (0 <= tau * w) by (apply Rmult_le_pos; lra). lra.
Qed.

(** zero weight: conjugate of 0 is the indicator of {0}. *)
Lemma wl2_dual_prox_zero sigma b d : 0 < sigma ->
  is_prox_conj sigma (total (fun x => 0 * (x - b) ^ 2 / 2)) d 0.
Proof.
  intros Hs. apply subgrad_prox_conj; [exact Hs|]. split; [exact I|].
  intros y _. simpl. lra.
Qed.

(** * l1 *)
Lemma l1_dual_prox sigma w b d : 0 < sigma -> 0 < w ->
  is_prox_conj sigma (total (fun x => w * Rabs (x - b))) d
    ((d - sigma * b) / np_fmax (Rabs (d - sigma * b)) w * w).
Proof.
  intros Hs Hw. apply subgrad_prox_conj; [exact Hs|].
  destruct (clip_cases (d - sigma * b) w Hw) as [[H E]|[[H E]|[H E]]]; rewrite E.
  - apply abs_subgrad; [exact H|]. 
    replace ((d - (d - sigma * b)) / sigma - b) with 0 by (field; lra). rewrite Rabs_R0. ring.
  - apply abs_subgrad; [rewrite Rabs_right; lra|].
    rewrite Rabs_right; [ring|]. 
    replace ((d - w) / sigma - b) with ((d - sigma * b - w) / sigma) by (field; lra).
    apply Rle_ge. apply Rlt_le. apply Rdiv_lt_0_compat; lra.
  - apply abs_subgrad; [rewrite Rabs_left; lra|].
    rewrite Rabs_left; [ring|].
    replace ((d - - w) / sigma - b) with (- ((- (d - sigma * b) - w) / sigma)) by (field; lra).
    apply Ropp_lt_gt_0_contravar. apply Rdiv_lt_0_compat; lra.
Qed.

Lemma l1_dual_projection w d : 0 < w ->
  is_projection (fun q => - w <= q <= w) d (d / np_fmax (Rabs d) w * w).
Proof.
  intros Hw. destruct (clip_cases d w Hw) as [[H E]|[[H E]|[H E]]]; rewrite E.
  - split; [unfold Rabs in H; destruct (Rcase_abs d); lra|].
    intros q _ Hne. pose proof (sq_pos_ne q d Hne). nra.
  - split; [lra|]. intros q Hq Hne. assert (q < w) by lra. nra.
  - split; [lra|]. intros q Hq Hne. assert (- w < q) by lra. nra.
Qed.

Lemma l1_primal_prox tau b z : 0 < tau ->
  is_prox tau (total (fun x => Rabs (x - b))) z (soft_threshold1 (z - b) tau + b).
Proof.
  intros Ht. apply subgrad_prox; [exact Ht|].
  replace (fun x => Rabs (x - b)) with (fun x => 1 * Rabs (x - b))
    by (apply functional_extensionality; intros; ring).
  destruct (soft_cases (z - b) tau ltac:(lra)) as [[H E]|[[H E]|[H E]]]; rewrite E.
  - apply abs_subgrad.
    + unfold Rdiv. rewrite Rabs_mult, (Rabs_right (/ tau)).
      2:{ apply Rle_ge, Rlt_le, Rinv_0_lt_compat; lra. }
      apply Rmult_le_reg_r with tau; [lra|].
      replace (Rabs (z - (0 + b)) * / tau * tau) with (Rabs (z - (0 + b))) by (field; lra).
      replace (z - (0 + b)) with (z - b) by ring. lra.
    + replace (0 + b - b) with 0 by ring. rewrite Rabs_R0. ring.
  - replace ((z - (z - b - tau + b)) / tau) with 1 by (field; lra).
    apply abs_subgrad; [rewrite Rabs_R1; lra|]. rewrite (Rabs_right (_ - b)); lra.
  - replace ((z - (z - b + tau + b)) / tau) with (-1) by (field; lra).
    apply abs_subgrad; [rewrite Rabs_left; lra|]. rewrite (Rabs_left (_ - b)); lra.
Qed.

(** * KL *)
Lemma ln_le_sub1 x : 0 < x -> ln x <= x - 1.
Proof.
  intros Hx. destruct (Req_dec (ln x) 0) as [E|E].
  - assert (x = 1) by (rewrite <- (exp_ln x Hx), E; apply exp_0). lra.
  - pose proof (exp_ineq1 (ln x) E). rewrite exp_ln in H by exact Hx. lra.
Qed.

Lemma KL_subgrad b x : 0 < b -> 0 < x -> subgrad (KL_fun b) x (1 - b / x).
Proof.
  intros Hb Hx. split; simpl; destruct (Req_EM_T b 0); try lra.
  intros y Hy. assert (H : ln (y / x) <= y / x - 1) by (apply ln_le_sub1; apply Rdiv_lt_0_compat; lra).
  unfold Rdiv in H. rewrite ln_mult in H by (auto; apply Rinv_0_lt_compat; lra).
  rewrite ln_Rinv in H by lra.
  assert (b * (ln y - ln x) <= b * (y * / x - 1)) by (apply Rmult_le_compat_l; lra).
  replace ((1 - b / x) * (y - x)) with (y - x - b * (y * / x - 1)) by (field; lra). lra.
Qed.

Lemma KL_subgrad0 x p : p <= 1 -> 0 <= x -> (p < 1 -> x = 0) -> subgrad (KL_fun 0) x p.
Proof.
  intros Hp Hx Hc. split; simpl; destruct (Req_EM_T 0 0); try lra.
  intros y Hy. destruct (Rle_lt_or_eq_dec p 1 Hp) as [H|H].
  - rewrite (Hc H). nra.
  - subst p. lra.
Qed.

Definition kl_dual_formula (sigma b d : R) : R := (1 + d - sqrt ((d - 1) ^ 2 + 4 * sigma * b)) / 2.

Lemma kl_dual_props sigma b d : 0 < sigma -> 0 < b ->
  let p := kl_dual_formula sigma b d in p < 1 /\ p < d /\ (1 - p) * (d - p) = sigma * b.
Proof.
  intros Hs Hb p. unfold p, kl_dual_formula.
  assert (Hpos : 0 < 4 * sigma * b) by (repeat apply Rmult_lt_0_compat; lra).
  set (D := (d - 1) ^ 2 + 4 * sigma * b).
  assert (HD : 0 <= D) by (unfold D; pose proof (pow2_ge_0 (d - 1)); lra).
  pose proof (sqrt_sqrt D HD) as Hq. pose proof (sqrt_pos D) as Hsp.
  set (s := sqrt D) in *. assert (Hgt : (d - 1) ^ 2 < s * s) by (rewrite Hq; unfold D; lra).
  assert (Rabs (d - 1) < s).
  { apply Rsqr_lt_abs_0 in Hgt as H1 || idtac.
    rewrite <- (Rabs_right s) by lra. apply Rsqr_lt_abs_0. unfold Rsqr. nra. }
  assert (d - 1 < s) by (pose proof (Rle_abs (d - 1)); lra).
  assert (- (d - 1) < s) by (pose proof (Rle_abs (- (d - 1))); rewrite Rabs_Ropp in *; lra).
  repeat split; try lra. unfold D in Hq. nra.
Qed.

Lemma kl_dual_prox sigma b d : 0 < sigma -> 0 <= b ->
  is_prox_conj sigma (KL_fun b) d (kl_dual_formula sigma b d).
Proof.
  intros Hs Hb. apply subgrad_prox_conj; [exact Hs|].
  destruct (Rle_lt_or_eq_dec 0 b Hb) as [Hb'|<-].
  - destruct (kl_dual_props sigma b d Hs Hb') as [H1 [H2 H3]].
    set (p := kl_dual_formula sigma b d) in *.
    replace p with (1 - b / ((d - p) / sigma)) at 2.
    + apply KL_subgrad; [exact Hb'|]. apply Rdiv_lt_0_compat; lra.
    + assert (b = (1 - p) * (d - p) / sigma) by (rewrite H3; field; lra).
      rewrite H. field. split; lra.
  - unfold kl_dual_formula. replace ((d - 1) ^ 2 + 4 * sigma * 0) with (Rsqr (d - 1)) by (unfold Rsqr; ring).
    rewrite sqrt_Rsqr_abs. unfold Rabs. destruct (Rcase_abs (d - 1)).
    + replace ((1 + d - - (d - 1)) / 2) with d by lra. apply KL_subgrad0; [lra| |];
        replace ((d - d) / sigma) with 0 by (field; lra); lra.
    + replace ((1 + d - (d - 1)) / 2) with 1 by lra. apply KL_subgrad0; [lra| |lra].
      apply Rmult_le_reg_r with sigma; [lra|]. replace ((d - 1) / sigma * sigma) with (d - 1) by (field; lra). lra.
Qed.

Lemma kl_primal_props tau b z : 0 < tau -> 0 < b ->
  let p := ((z - tau) + sqrt ((z - tau) ^ 2 + 4 * tau * b)) / 2 in
  0 < p /\ p * p - (z - tau) * p = tau * b.
Proof.
  intros Ht Hb p. unfold p.
  assert (Hpos : 0 < 4 * tau * b) by (repeat apply Rmult_lt_0_compat; lra).
  set (D := (z - tau) ^ 2 + 4 * tau * b).
  assert (HD : 0 <= D) by (unfold D; pose proof (pow2_ge_0 (z - tau)); lra).
  pose proof (sqrt_sqrt D HD) as Hq. pose proof (sqrt_pos D) as Hsp.
  set (s := sqrt D) in *.
  assert (Rabs (z - tau) < s).
  { rewrite <- (Rabs_right s) by lra. apply Rsqr_lt_abs_0. unfold Rsqr, D in *. nra. }
  assert (- (z - tau) < s) by (pose proof (Rle_abs (- (z - tau))); rewrite Rabs_Ropp in *; lra).
  split; [lra|]. unfold D in Hq. nra.
Qed.

Lemma kl_primal_prox tau b z : 0 < tau -> 0 < b ->
  let p := ((z - tau) + sqrt ((z - tau) ^ 2 + 4 * tau * b)) / 2 in
  0 < p /\ is_prox tau (KL_fun b) z p.
Proof.
  intros Ht Hb p. destruct (kl_primal_props tau b z Ht Hb) as [H1 H2]. fold p in H1, H2.
  split; [exact H1|]. apply subgrad_prox; [exact Ht|].
  replace ((z - p) / tau) with (1 - b / p); [apply KL_subgrad; auto|].
  assert (E : b = (p * p - (z - tau) * p) / tau) by (rewrite H2; field; lra).
  rewrite E. field. split; lra.
Qed.

Lemma kl_primal_prox0 tau z : 0 < tau ->
  is_prox tau (KL_fun 0) z (((z - tau) + sqrt ((z - tau) ^ 2 + 4 * tau * 0)) / 2).
Proof.
  intros Ht. replace ((z - tau) ^ 2 + 4 * tau * 0) with (Rsqr (z - tau)) by (unfold Rsqr; ring).
  rewrite sqrt_Rsqr_abs. apply subgrad_prox; [exact Ht|].
  unfold Rabs. destruct (Rcase_abs (z - tau)).
  - replace ((z - tau + - (z - tau)) / 2) with 0 by lra. apply KL_subgrad0; try lra.
    apply Rmult_le_reg_r with tau; [lra|]. replace ((z - 0) / tau * tau) with z by (field; lra). lra.
  - replace ((z - tau + (z - tau)) / 2) with (z - tau) by lra.
    replace ((z - (z - tau)) / tau) with 1 by (field; lra). apply KL_subgrad0; lra.
Qed.

(** * Huber *)
Lemma huber_ge e b q y : 0 <= e -> Rabs q <= 1 -> q * (y - b) - e * q ^ 2 / 2 <= huber_fun e b y.
Proof.
  intros He Hq. unfold huber_fun.
  destruct (Rle_dec (Rabs (y - b)) e) as [H|H].
  - destruct (Req_EM_T e 0) as [->|Hne].
    + assert (y - b = 0). { pose proof (Rabs_pos (y - b)). assert (E: Rabs (y - b) = 0) by lra.
        destruct (Req_dec (y - b) 0) as [Z|Z]; [exact Z|]. apply Rabs_no_R0 in Z. lra. }
      rewrite H0. lra.
    + assert (0 < e) by lra. assert (0 <= (y - b - e * q) ^ 2) by apply pow2_ge_0.
      apply Rmult_le_reg_l with (2 * e); [lra|].
      replace (2 * e * ((y - b) ^ 2 / (2 * e))) with ((y - b) ^ 2) by (field; lra). nra.
  - assert (Hqy : q * (y - b) <= Rabs q * Rabs (y - b)) by (rewrite <- Rabs_mult; apply Rle_abs).
    set (a := Rabs (y - b)) in *. set (r := Rabs q) in *. assert (0 <= r) by apply Rabs_pos.
    replace (q ^ 2) with (r ^ 2) by (unfold r; apply pow2_abs). assert (e < a) by lra. assert (0 <= e * (1 - r)) by (apply Rmult_le_pos; lra). assert (0 <= (1 - r) * (a - e * (1 + r) / 2)) by (apply Rmult_le_pos; lra). nra.
Qed.

Lemma huber_subgrad e b x q : 0 <= e -> Rabs q <= 1 ->
  huber_fun e b x = q * (x - b) - e * q ^ 2 / 2 -> subgrad (total (huber_fun e b)) x q.
Proof.
  intros He Hq E. split; [exact I|]. intros y _. simpl. rewrite E.
  pose proof (huber_ge e b q y He Hq). lra.
Qed.

Lemma huber_clip d : d / np_fmax 1 (Rabs d) = d / np_fmax (Rabs d) 1 * 1.
Proof. unfold np_fmax. rewrite Rmax_comm. ring. Qed.

Lemma huber_dual_prox sigma e b d : 0 < sigma -> 0 <= e ->
  let d' := (d - sigma * b) * (1 / (1 + sigma * e)) in
  is_prox_conj sigma (total (huber_fun e b)) d (d' / np_fmax 1 (Rabs d')) /\
  Rabs (d' / np_fmax 1 (Rabs d')) <= 1.
Proof.
  intros Hs He d'. rewrite huber_clip.
  assert (Hse : 0 <= sigma * e) by (apply Rmult_le_pos; lra).
  assert (Ed : d = d' * (1 + sigma * e) + sigma * b) by (unfold d'; field; lra).
  assert (Hb : Rabs (d' / np_fmax (Rabs d') 1 * 1) <= 1).
  { destruct (clip_cases d' 1 ltac:(lra)) as [[H E]|[[H E]|[H E]]]; rewrite E; auto.
    - rewrite Rabs_R1; lra. - rewrite Rabs_left; lra. }
  split; [|exact Hb].
  apply subgrad_prox_conj; [exact Hs|]. apply huber_subgrad; [exact He|exact Hb|].
  destruct (clip_cases d' 1 ltac:(lra)) as [[H E]|[[H E]|[H E]]]; rewrite E; clear E Hb.
  - set (x := (d - d') / sigma). assert (Ex : x - b = e * d') by (unfold x; rewrite Ed; field; lra).
    unfold huber_fun. rewrite Ex.
    destruct (Rle_dec (Rabs (e * d')) e) as [_|Hn].
    + destruct (Req_EM_T e 0) as [->|Hne]; [lra|]. field. lra.
    + exfalso. apply Hn. rewrite Rabs_mult, (Rabs_right e) by lra. 
      apply Rle_trans with (e * 1); [apply Rmult_le_compat_l; lra|lra].
  - set (x := (d - 1) / sigma).
    assert (Ex : x - b = e + (d' - 1) * (1 + sigma * e) / sigma) by (unfold x; rewrite Ed; field; lra).
    assert (Hp : 0 < (d' - 1) * (1 + sigma * e) / sigma) by (apply Rdiv_lt_0_compat; [nra|lra]).
    unfold huber_fun. rewrite Rabs_right by lra.
    destruct (Rle_dec (x - b) e); [lra|]. lra.
  - set (x := (d - Ropp 1) / sigma).
    assert (Ex : x - b = - e - (- d' - 1) * (1 + sigma * e) / sigma) by (unfold x; rewrite Ed; field; lra).
    assert (Hp : 0 < (- d' - 1) * (1 + sigma * e) / sigma) by (apply Rdiv_lt_0_compat; [nra|lra]).
    set (h := (- d' - 1) * (1 + sigma * e) / sigma) in *.
    unfold huber_fun. rewrite (Rabs_left (x - b)) by lra.
    destruct (Rle_dec (- (x - b)) e); [lra|]. lra.
Qed.

(** * l2b dual *)
Lemma l2b_dual_prox sigma e b d : 0 < sigma -> 0 < e ->
  is_prox_conj sigma (total (l2b_fun e b)) d
    (soft_threshold1 (d - sigma * b) (sigma * sqrt e) * (1 / (1 + sigma * e))).
Proof.
  intros Hs He. apply subgrad_prox_conj; [exact Hs|].
  assert (Hr : 0 < sqrt e) by (apply sqrt_lt_R0; lra).
  assert (Hse : 0 < sigma * e) by (apply Rmult_lt_0_compat; lra).
  assert (Hsr : 0 < sigma * sqrt e) by (apply Rmult_lt_0_compat; lra).
  set (p := soft_threshold1 (d - sigma * b) (sigma * sqrt e) * (1 / (1 + sigma * e))).
  assert (Hge : forall q y, q * (y - b) - sqrt e * Rabs q - e * q ^ 2 / 2 <= l2b_fun e b y).
  { intros q y. unfold l2b_fun. set (a := Rabs (y - b)). set (m := Rmax (a - sqrt e) 0).
    assert (a - sqrt e <= m) by apply Rmax_l. assert (0 <= m) by apply Rmax_r.
    assert (q * (y - b) <= Rabs q * a) by (unfold a; rewrite <- Rabs_mult; apply Rle_abs).
    rewrite <- (pow2_abs q). set (r := Rabs q) in *. assert (0 <= r) by apply Rabs_pos.
    apply Rmult_le_reg_l with (2 * e); [lra|].
    replace (2 * e * (m ^ 2 / (2 * e))) with (m ^ 2) by (field; lra).
    assert (0 <= (m - e * r) ^ 2) by apply pow2_ge_0.
    assert (r * (a - sqrt e) <= r * m) by (apply Rmult_le_compat_l; lra).
    assert (q * (y - b) - sqrt e * r <= r * m) by lra.
    assert (2 * e * (q * (y - b) - sqrt e * r) <= 2 * e * (r * m)) by (apply Rmult_le_compat_l; lra).
    nra. }
  assert (Heq : l2b_fun e b ((d - p) / sigma) = p * ((d - p) / sigma - b) - sqrt e * Rabs p - e * p ^ 2 / 2).
  { unfold l2b_fun. set (x := (d - p) / sigma).
    assert (Ex : x - b = (d - sigma * b - p) / sigma) by (unfold x; field; lra).
    destruct (soft_cases (d - sigma * b) (sigma * sqrt e) ltac:(lra)) as [[H E]|[[H E]|[H E]]].
    - assert (p = 0) by (unfold p; rewrite E; ring). rewrite Ex, H0.
      replace ((d - sigma * b - 0) / sigma) with ((d - sigma * b) * / sigma) by (field; lra).
      rewrite Rabs_mult, (Rabs_right (/ sigma)) by (apply Rle_ge, Rlt_le, Rinv_0_lt_compat; lra).
      assert (Rabs (d - sigma * b) * / sigma <= sqrt e).
      { apply Rmult_le_reg_r with sigma; [lra|]. rewrite Rmult_assoc, Rinv_l by lra. lra. }
      rewrite Rmax_right by lra. rewrite Rabs_R0. field. lra.
    - assert (Hp : 0 < p).
      { unfold p. rewrite E. apply Rmult_lt_0_compat; [lra|]. apply Rdiv_lt_0_compat; lra. }
      assert (Ep : p * (1 + sigma * e) = d - sigma * b - sigma * sqrt e) by (unfold p; rewrite E; field; lra).
      assert (Ex' : x - b = sqrt e + e * p).
      { rewrite Ex. apply Rmult_eq_reg_r with sigma; [|lra].
        replace ((d - sigma * b - p) / sigma * sigma) with (d - sigma * b - p) by (field; lra). lra. }
      rewrite Ex'. assert (0 < e * p) by (apply Rmult_lt_0_compat; lra).
      rewrite !Rabs_right by lra. rewrite Rmax_left by lra. field. lra.
    - assert (Hp : p < 0).
      { unfold p. rewrite E. rewrite <- (Rmult_0_l (1 / (1 + sigma * e))).
        apply Rmult_lt_compat_r; [apply Rdiv_lt_0_compat; lra|lra]. }
      assert (Ep : p * (1 + sigma * e) = d - sigma * b + sigma * sqrt e) by (unfold p; rewrite E; field; lra).
      assert (Ex' : x - b = - sqrt e + e * p).
      { rewrite Ex. apply Rmult_eq_reg_r with sigma; [|lra].
        replace ((d - sigma * b - p) / sigma * sigma) with (d - sigma * b - p) by (field; lra). lra. }
      rewrite Ex'. assert (e * p < 0) by nra.
      rewrite !Rabs_left by lra. rewrite Rmax_left by lra. field. lra. }
  split; [exact I|]. intros y _. simpl. specialize (Hge p y). lra.
Qed.

(** * Group (l1,2) projection *)
Lemma lsum_rsum (g : list nat) (f : nat -> R) : lsum g f = rsum (length g) (fun k => f (nth k g 0%nat)).
Proof.
  induction g as [|a g IH]; [reflexivity|]. simpl length. rewrite rsum_S_l. simpl. rewrite IH. reflexivity.
Qed.

Lemma lsum_ext {A} (l : list A) f g : (forall a, In a l -> f a = g a) -> lsum l f = lsum l g.
Proof. induction l as [|a l IH]; intros H; [reflexivity|]. simpl. rewrite H, IH; simpl; auto. intros; apply H; simpl; auto. Qed.
Lemma lsum_nonneg {A} (l : list A) f : (forall a, In a l -> 0 <= f a) -> 0 <= lsum l f.
Proof. induction l as [|a l IH]; intros H; simpl; [lra|]. assert (0 <= f a) by (apply H; simpl; auto).
  assert (0 <= lsum l f) by (apply IH; intros; apply H; simpl; auto). lra. Qed.
Lemma lsum_scal {A} (l : list A) c f : lsum l (fun a => c * f a) = c * lsum l f.
Proof. induction l as [|a l IH]; simpl; [ring|]. rewrite IH. ring. Qed.
Lemma lsum_plus {A} (l : list A) f g : lsum l (fun a => f a + g a) = lsum l f + lsum l g.
Proof. induction l as [|a l IH]; simpl; [ring|]. rewrite IH. ring. Qed.
Lemma lsum_CS (l : list nat) f g :
  lsum l (fun a => f a * g a) <= sqrt (lsum l (fun a => f a ^ 2)) * sqrt (lsum l (fun a => g a ^ 2)).
Proof.
  rewrite !lsum_rsum. pose proof (rsum_CS (length l) (fun k => f (nth k l 0%nat)) (fun k => g (nth k l 0%nat))) as H.
  cbv beta in H. rewrite <- sqrt_mult by (apply rsum_nonneg; intros; apply pow2_ge_0).
  eapply Rle_trans; [apply Rle_abs|]. rewrite <- sqrt_Rsqr_abs. apply sqrt_le_1_alt.
  unfold Rsqr. eapply Rle_trans; [|exact H]. lra.
Qed.

Lemma ball_projection g w d : 0 < w ->
  is_ball_projection g w d (fun j => d j / np_fmax (sqrt (lsum g (fun k => d k ^ 2))) w * w).
Proof.
  intros Hw. unfold np_fmax. set (N2 := lsum g (fun k => d k ^ 2)).
  assert (HN : 0 <= N2) by (apply lsum_nonneg; intros; apply pow2_ge_0).
  set (N := sqrt N2). assert (HN' : 0 <= N) by apply sqrt_pos.
  assert (Hsq : N * N = N2) by (apply sqrt_sqrt; exact HN).
  unfold is_ball_projection. destruct (Rle_lt_dec N w) as [H|H].
  - rewrite Rmax_right by lra.
    assert (E : forall j, d j / w * w = d j) by (intros; field; lra).
    split.
    + rewrite (lsum_ext g _ (fun k => d k ^ 2)) by (intros; rewrite E; ring). exact H.
    + intros q _. rewrite (lsum_ext g _ (fun _ => 0 * 0)) by (intros; rewrite E; ring).
      rewrite lsum_scal. rewrite Rmult_0_l. apply lsum_nonneg. intros; apply pow2_ge_0.
  - rewrite Rmax_left by lra. assert (HN0 : 0 < N) by lra. set (c := w / N).
    assert (Hc : 0 < c) by (apply Rdiv_lt_0_compat; lra).
    assert (Hc1 : c < 1) by (apply Rmult_lt_reg_r with N; [lra|]; unfold c; field_simplify; lra).
    assert (HcN : c * N = w) by (unfold c; field; lra).
    assert (E : forall j, d j / N * w = c * d j) by (intros; unfold c; field; lra).
    split.
    + rewrite (lsum_ext g _ (fun k => c ^ 2 * d k ^ 2)) by (intros; rewrite E; ring).
      rewrite lsum_scal. fold N2. replace (c ^ 2 * N2) with (Rsqr (c * N)) by (unfold Rsqr; rewrite <- Hsq; ring).
      rewrite sqrt_Rsqr by nra. lra.
    + intros q Hq. set (Q2 := lsum g (fun j => q j ^ 2)) in *.
      assert (HQ2 : 0 <= Q2) by (apply lsum_nonneg; intros; apply pow2_ge_0).
      rewrite (lsum_ext g _ (fun k => (c - 1) ^ 2 * d k ^ 2)) by (intros; rewrite E; ring).
      rewrite lsum_scal. fold N2.
      rewrite (lsum_ext g (fun j => (q j - d j) ^ 2) (fun j => q j ^ 2 + (-2 * (q j * d j) + 1 * d j ^ 2)))
        by (intros; ring).
      rewrite !lsum_plus, !lsum_scal. fold N2. fold Q2.
      pose proof (lsum_CS g q d) as CS. fold N2 in CS. fold Q2 in CS. fold N in CS.
      pose proof (sqrt_sqrt Q2 HQ2). set (Qr := sqrt Q2) in *. assert (0 <= Qr) by apply sqrt_pos.
      set (X := lsum g (fun a => q a * d a)) in *.
      assert (N - Qr >= N - w) by lra.
      assert ((N - w) * (N - w) <= (N - Qr) * (N - Qr)) by (apply Rmult_le_compat; lra).
      replace ((c - 1) ^ 2 * N2) with ((N - w) * (N - w)) by (rewrite <- HcN, <- Hsq; ring).
      nra.
Qed.

(** * l1b dual *)
Lemma l1b_subgrad e b x p : 0 <= e -> Rabs p <= 1 ->
  l1b_fun e b x = p * (x - b) - e * Rabs p -> subgrad (total (l1b_fun e b)) x p.
Proof.
  intros He Hp E. split; [exact I|]. intros y _. simpl. rewrite E.
  assert (p * (y - b) - e * Rabs p <= l1b_fun e b y); [|lra].
  unfold l1b_fun. assert (p * (y - b) <= Rabs p * Rabs (y - b)) by (rewrite <- Rabs_mult; apply Rle_abs).
  set (m := Rmax (Rabs (y - b) - e) 0). assert (Rabs (y - b) - e <= m) by apply Rmax_l.
  assert (0 <= m) by apply Rmax_r. set (r := Rabs p) in *. assert (0 <= r) by apply Rabs_pos.
  assert (r * (Rabs (y - b) - e) <= r * m) by (apply Rmult_le_compat_l; lra). nra.
Qed.

(** The true dual proximal map: threshold sigma*e, then clip to [-1,1]. *)
Definition l1b_true (sigma e b d : R) : R :=
  let v := soft_threshold1 (d - sigma * b) (sigma * e) in v / np_fmax (Rabs v) 1 * 1.

Lemma l1b_dual_prox sigma e b d : 0 < sigma -> 0 <= e ->
  is_prox_conj sigma (total (l1b_fun e b)) d (l1b_true sigma e b d).
Proof.
  intros Hs He. apply subgrad_prox_conj; [exact Hs|].
  assert (Hse : 0 <= sigma * e) by (apply Rmult_le_pos; lra).
  unfold l1b_true. set (v := soft_threshold1 (d - sigma * b) (sigma * e)).
  assert (Hx : forall p, (d - p) / sigma - b = (d - sigma * b - p) / sigma) by (intros; field; lra).
  assert (Hm : forall a, a / sigma * sigma = a) by (intros; field; lra).
  destruct (clip_cases v 1 ltac:(lra)) as [[H E]|[[H E]|[H E]]]; rewrite E; clear E.
  - apply l1b_subgrad; auto. unfold l1b_fun. rewrite Hx.
    destruct (soft_cases (d - sigma * b) (sigma * e) Hse) as [[H1 E]|[[H1 E]|[H1 E]]]; fold v in E.
    + rewrite E. unfold Rdiv. rewrite Rabs_mult, (Rabs_right (/ sigma)) by (apply Rle_ge, Rlt_le, Rinv_0_lt_compat; lra).
      rewrite Rabs_R0, Rmax_right; [ring|].
      assert (Rabs (d - sigma * b - 0) * / sigma <= e); [|lra].
      apply Rmult_le_reg_r with sigma; [lra|]. rewrite Rmult_assoc, Rinv_l by lra. 
      replace (d - sigma * b - 0) with (d - sigma * b) by ring. lra.
    + assert (E2 : (d - sigma * b - v) / sigma = e) by (rewrite E; field; lra). rewrite E2.
      rewrite (Rabs_right e) by lra. rewrite Rmax_right by lra. rewrite (Rabs_right v) by lra. ring.
    + assert (E2 : (d - sigma * b - v) / sigma = - e) by (rewrite E; field; lra). rewrite E2.
      rewrite Rabs_Ropp, (Rabs_right e) by lra. rewrite Rmax_right by lra. rewrite (Rabs_left v) by lra. ring.
  - apply l1b_subgrad; auto; [rewrite Rabs_R1; lra|]. unfold l1b_fun. rewrite Hx.
    destruct (soft_cases (d - sigma * b) (sigma * e) Hse) as [[H1 E]|[[H1 E]|[H1 E]]]; fold v in E; try lra.
    assert (E2 : (d - sigma * b - 1) / sigma = e + (v - 1) / sigma) by (rewrite E; field; lra). rewrite E2.
    assert (0 < (v - 1) / sigma) by (apply Rdiv_lt_0_compat; lra).
    rewrite Rabs_R1, Rabs_right by lra. rewrite Rmax_left by lra. ring.
  - apply l1b_subgrad; auto; [rewrite Rabs_left; lra|]. unfold l1b_fun. rewrite Hx.
    destruct (soft_cases (d - sigma * b) (sigma * e) Hse) as [[H1 E]|[[H1 E]|[H1 E]]]; fold v in E; try lra.
    assert (E2 : (d - sigma * b - Ropp 1) / sigma = - (e + (- v - 1) / sigma)) by (rewrite E; field; lra).
    rewrite E2. assert (0 < (- v - 1) / sigma) by (apply Rdiv_lt_0_compat; lra).
    rewrite Rabs_Ropp, (Rabs_right (e + _)) by lra. rewrite (Rabs_left (Ropp 1)) by lra.
    rewrite Rmax_left by lra. ring.
Qed.

Lemma is_prox_conj_unique sigma f d p q :
  is_prox_conj sigma f d p -> is_prox_conj sigma f d q -> p = q.
Proof.
  intros [v [Hv H1]] [w [Hw H2]]. destruct (Req_dec p q) as [E|E]; [exact E|].
  specialize (H1 q w Hw (not_eq_sym E)). specialize (H2 p v Hv E). lra.
Qed.

(** Soft-threshold inside a masked update etc. *)
Lemma soft_zero thr : soft_threshold1 0 thr = 0.
Proof. unfold soft_threshold1, np_sign. destruct (Rlt_dec 0 0); [lra|]. destruct (Rlt_dec 0 0); [lra|]. ring. Qed.

(** * Slicing *)
Lemma residual_slice ind t proj mask i :
  compute_residual (getitem ind t) (slice_vec ind proj) (option_map (slice_vec ind) mask) i
  = slice_vec ind (compute_residual t proj mask) i.
Proof.
  destruct t as [k bg data sg sd s1 sse ose]. unfold compute_residual, getitem, slice_vec, apply_mask, add_background,
    soft_threshold, proximal_dual.
  destruct k, bg, data, mask, sd; simpl; reflexivity.
Qed.

Definition elementwise_kind (k : kind) : Prop :=
  match k with K_l12 _ | K_Huber _ (Some _) => False | _ => True end.

Lemma prox_dual_slice ind t w d i : elementwise_kind (dt_kind t) ->
  proximal_dual (getitem ind t) (slice_vec ind w) (slice_vec ind d) i
  = slice_vec ind (proximal_dual t w d) i.
Proof.
  destruct t as [k bg data sg sd s1 sse ose]. intros Hk.
  unfold proximal_dual, getitem, slice_vec, sub_sigma_data, soft_threshold, hook_threshold, inner_norm.
  destruct k; simpl in Hk; try contradiction; destruct data, sd; simpl; try reflexivity;
  destruct l2_axis; try contradiction; reflexivity.
Qed.
