(** C165: PDHG converges with every separable data term: L2, weighted L2, L1, Huber, L2 with tolerance, L1 with tolerance. *)
From Coq Require Import FunctionalExtensionality.
From Verif Require Import Sums DataTermsModel DataTermsProofs SolversModel SolversSpec SolversGeneric SolversProps
  RegularizersModel SolversConv SolversConvProps SolversOptProps PdhgConv Compact PdhgConvProps PdhgExistProps PdhgData.

(** * One pixel: conjugate  a z^2/2 + k |z| + t z  on |z| <= rho (no bound: None) *)
Record sep := mkSep { sa : R; sk : R; st : R; sr : option R }.
Definition sep_ok (s : sep) : Prop := 0 <= sa s /\ 0 <= sk s /\ match sr s with Some rho => 0 <= rho | None => 0 < sa s end.
Definition sep_dom (s : sep) (z : R) : Prop := match sr s with Some rho => Rabs z <= rho | None => True end.
Definition sep_conj (s : sep) (z : R) : R := sa s * z ^ 2 / 2 + sk s * Rabs z + st s * z.
Definition sep_res (s : sep) (u : R) : R := Rmax 0 (Rabs (u - st s) - sk s).
Definition sep_mag (s : sep) (u : R) : R :=
  match sr s with
  | None => sep_res s u / sa s
  | Some rho => if Rle_dec (sep_res s u) (sa s * rho) then sep_res s u / sa s else rho
  end.
Definition sep_val (s : sep) (u : R) : R := sep_res s u * sep_mag s u - sa s * sep_mag s u ^ 2 / 2.
Definition sep_max (s : sep) (u : R) : R := np_sign (u - st s) * sep_mag s u.
Definition sep_clip (r : option R) (v : R) : R := match r with None => v | Some rho => Rmax (- rho) (Rmin rho v) end.
Definition sep_prox (s : sep) (sg p u : R) : R := sep_clip (sr s) (soft_threshold1 (p + sg * (u - st s)) (sg * sk s) / (1 + sg * sa s)).

Lemma soft_cases v thr : 0 <= thr ->
  (thr < v /\ soft_threshold1 v thr = v - thr) \/ (v < - thr /\ soft_threshold1 v thr = v + thr) \/ (Rabs v <= thr /\ soft_threshold1 v thr = 0).
Proof.
  intros Ht. unfold soft_threshold1, np_sign, np_fmax. unfold Rabs. destruct (Rcase_abs v) as [H|H].
  - destruct (Rlt_dec 0 v); [lra|]. destruct (Rlt_dec v 0); [|lra]. destruct (Rlt_le_dec thr (- v)).
    + right; left. split; [lra|]. rewrite Rmax_left by lra. ring.
    + right; right. split; [lra|]. rewrite Rmax_right by lra. ring.
  - destruct (Rlt_dec 0 v).
    + destruct (Rlt_le_dec thr v).
      * left. split; [lra|]. rewrite Rmax_left by lra. ring.
      * right; right. split; [lra|]. rewrite Rmax_right by lra. ring.
    + right; right. split; [lra|]. destruct (Rlt_dec v 0); [lra|]. ring.
Qed.
Lemma abs_le_iff x r : Rabs x <= r <-> - r <= x <= r.
Proof. unfold Rabs. destruct (Rcase_abs x); lra. Qed.
Lemma clip_cases rho v : 0 <= rho -> (Rabs v <= rho /\ sep_clip (Some rho) v = v) \/ (rho < v /\ sep_clip (Some rho) v = rho) \/ (v < - rho /\ sep_clip (Some rho) v = - rho).
Proof.
  intros Hr. unfold sep_clip, Rmax, Rmin, Rabs. destruct (Rcase_abs v), (Rle_dec rho v), (Rle_dec (- rho) rho); try lra;
    try (destruct (Rle_dec (- rho) v); lra).
Qed.
Lemma clip_dom s sg p u : sep_ok s -> sep_dom s (sep_prox s sg p u).
Proof.
  intros (_ & _ & Hr). unfold sep_dom, sep_prox. destruct (sr s) as [rho|]; [|exact I].
  set (v := soft_threshold1 _ _ / _). destruct (clip_cases rho v Hr) as [[H E]|[[H E]|[H E]]]; rewrite E; apply abs_le_iff; try lra. apply abs_le_iff, H.
Qed.

Lemma sep_vi s sg p u : sep_ok s -> 0 < sg -> let z := sep_prox s sg p u in forall y, sep_dom s y ->
  sep_conj s z + (u * (y - z) + (p - z) * (y - z) / sg) <= sep_conj s y.
Proof.
  intros (Ha & Hk & Hr) Hsg z y Hy. set (a := sa s) in *. set (k := sk s) in *. set (t := st s).
  set (d := p + sg * (u - t)). set (v := soft_threshold1 d (sg * k) / (1 + sg * a)).
  assert (H1 : 0 < 1 + sg * a) by nra. assert (Hk' : 0 <= sg * k) by nra.
  set (g := (d - (1 + sg * a) * z) / sg).
  assert (K : g * (y - z) <= k * Rabs y - k * Rabs z).
  { assert (Hg : g = (d - (1 + sg * a) * z) / sg) by reflexivity.
    assert (Hs : (sg * k < d /\ v * (1 + sg * a) = d - sg * k) \/ (d < - (sg * k) /\ v * (1 + sg * a) = d + sg * k) \/ (Rabs d <= sg * k /\ v = 0)).
    { unfold v. destruct (soft_cases d (sg * k) Hk') as [[A E]|[[A E]|[A E]]]; rewrite E; [left|right; left|right; right]; (split; [exact A|field; lra]). }
    assert (Hz : z = v \/ (exists rho, sr s = Some rho /\ 0 <= rho /\ rho < v /\ z = rho) \/ (exists rho, sr s = Some rho /\ 0 <= rho /\ v < - rho /\ z = - rho)).
    { unfold z, sep_prox. fold a k t d. fold v. destruct (sr s) as [rho|]; [|left; reflexivity].
      destruct (clip_cases rho v Hr) as [[A E]|[[A E]|[A E]]]; rewrite E; [left; reflexivity|right; left|right; right]; exists rho; auto. }
    assert (Hyb : forall rho, sr s = Some rho -> - rho <= y <= rho) by (intros rho E; unfold sep_dom in Hy; rewrite E in Hy; apply abs_le_iff, Hy).
    assert (Gs : g * sg = d - (1 + sg * a) * z) by (rewrite Hg; field; lra).
    pose proof (Rle_abs y) as Y1. pose proof (Rle_abs (- y)) as Y2. rewrite Rabs_Ropp in Y2.
    destruct Hz as [Ez|[(rho & E & R0 & Rv & Ez)|(rho & E & R0 & Rv & Ez)]]; destruct Hs as [[A B]|[[A B]|[A B]]].
    - assert (g = k) by (apply Rmult_eq_reg_r with sg; [rewrite Gs, Ez; lra|lra]). assert (0 <= v) by (apply Rmult_le_reg_r with (1 + sg * a); lra).
      rewrite H, Ez, (Rabs_right v) by lra. nra.
    - assert (g = - k) by (apply Rmult_eq_reg_r with sg; [rewrite Gs, Ez; lra|lra]). assert (v <= 0) by (apply Rmult_le_reg_r with (1 + sg * a); lra).
      rewrite H, Ez. replace (Rabs v) with (- v) by (rewrite Rabs_left1; lra). nra.
    - rewrite Ez, B, Rabs_R0, Rminus_0_r, Rmult_0_r, Rminus_0_r. rewrite Ez, B in Gs. apply abs_le_iff in A.
      assert (- k <= g <= k) by (split; apply Rmult_le_reg_r with sg; lra). unfold Rabs. destruct (Rcase_abs y); nra.
    - specialize (Hyb rho E). assert (k <= g). { apply Rmult_le_reg_r with sg; [lra|]. rewrite Gs, Ez. assert (v * (1 + sg * a) > rho * (1 + sg * a)) by (apply Rmult_gt_compat_r; lra). lra. }
      rewrite Ez, (Rabs_right rho) by lra. assert (g * (rho - y) >= k * (rho - y)) by (apply Rmult_ge_compat_r; lra). assert (k * y <= k * Rabs y) by (apply Rmult_le_compat_l; lra). lra.
    - assert (v <= 0) by (apply Rmult_le_reg_r with (1 + sg * a); lra). lra.
    - rewrite B in Rv. lra.
    - assert (0 <= v) by (apply Rmult_le_reg_r with (1 + sg * a); lra). lra.
    - specialize (Hyb rho E). assert (g <= - k). { apply Rmult_le_reg_r with sg; [lra|]. rewrite Gs, Ez. assert (v * (1 + sg * a) < - rho * (1 + sg * a)) by (apply Rmult_lt_compat_r; lra). lra. }
      rewrite Ez, Rabs_Ropp, (Rabs_right rho) by lra. assert ((- g) * (y + rho) >= k * (y + rho)) by (apply Rmult_ge_compat_r; lra). assert (k * - y <= k * Rabs y) by (apply Rmult_le_compat_l; lra). lra.
    - rewrite B in Rv. lra. }
  assert (E : u * (y - z) + (p - z) * (y - z) / sg = (g + a * z + t) * (y - z)) by (unfold g, d; field; lra).
  rewrite E. unfold sep_conj. fold a k t. assert (0 <= a * (y - z) ^ 2 / 2) by (apply Rdiv_le_0_compat; [apply Rmult_le_pos; [exact Ha|apply pow2_ge_0]|lra]). lra.
Qed.

(** the maximiser, and strong concavity *)
Lemma sep_mag_facts s u : sep_ok s -> let r := sep_res s u in let y := sep_mag s u in
  0 <= r /\ 0 <= y /\ sep_dom s (sep_max s u) /\ sa s * y <= r /\ forall w, 0 <= w -> sep_dom s w -> (r - sa s * y) * (y - w) >= 0.
Proof.
  intros (Ha & Hk & Hr) r y. assert (Hr0 : 0 <= r) by apply Rmax_l. split; [exact Hr0|].
  assert (D : 0 <= y /\ sa s * y <= r /\ (match sr s with Some rho => y <= rho | None => True end) /\ forall w, 0 <= w -> sep_dom s w -> (r - sa s * y) * (y - w) >= 0).
  { unfold y, sep_mag, sep_dom. fold r. destruct (sr s) as [rho|].
    - destruct (Rle_dec r (sa s * rho)) as [H|H].
      + destruct (Req_dec (sa s) 0) as [E|E].
        * rewrite E in *. assert (r = 0) by lra. rewrite H0. unfold Rdiv. rewrite Rmult_0_l. split; [lra|]. split; [lra|]. split; [exact Hr|]. intros w Hw _. lra.
        * assert (0 < sa s) by lra. assert (E1 : sa s * (r / sa s) = r) by (field; lra). split; [apply Rdiv_le_0_compat; lra|]. split; [lra|]. split.
          -- apply Rmult_le_reg_l with (sa s); [lra|]. lra.
          -- intros w Hw Hd. rewrite E1. lra.
      + split; [exact Hr|]. split; [lra|]. split; [lra|]. intros w Hw Hd. apply abs_le_iff in Hd. apply Rle_ge, Rmult_le_pos; lra.
    - assert (E1 : sa s * (r / sa s) = r) by (field; lra). split; [apply Rdiv_le_0_compat; lra|]. split; [lra|]. split; [exact I|]. intros w Hw Hd. rewrite E1. lra. }
  destruct D as (D1 & D2 & D3 & D4). split; [exact D1|]. split; [|split; [exact D2|exact D4]].
  unfold sep_dom, sep_max. destruct (sr s) as [rho|]; [|exact I]. fold y. unfold np_sign. apply abs_le_iff. destruct (Rlt_dec 0 (u - st s)); [lra|]. destruct (Rlt_dec (u - st s) 0); lra.
Qed.
Lemma sep_strong s u z : sep_ok s -> sep_dom s z ->
  u * z - sep_conj s z + sa s / 2 * (sep_max s u - z) ^ 2 <= sep_val s u /\ u * sep_max s u - sep_conj s (sep_max s u) = sep_val s u.
Proof.
  intros Hok Hz. pose proof (sep_mag_facts s u Hok) as (Hr & Hy & Hd & Hay & Hv). destruct Hok as (Ha & Hk & Hrr).
  unfold sep_val, sep_conj, sep_max. set (a := sa s) in *. set (k := sk s) in *. set (e := u - st s). set (r := sep_res s u) in *. set (y := sep_mag s u) in *.
  assert (Er : r = Rmax 0 (Rabs e - k)) by reflexivity.
  assert (Hw : sep_dom s (Rabs z)) by (unfold sep_dom in *; destruct (sr s); [rewrite Rabs_Rabsolu; exact Hz|exact I]).
  specialize (Hv (Rabs z) (Rabs_pos z) Hw).
  assert (Ey0 : r = 0 -> y = 0).
  { intros E. unfold y, sep_mag. fold r. rewrite E. destruct (sr s) as [rho|]; [|unfold Rdiv; ring]. destruct (Rle_dec 0 (sa s * rho)) as [H|H]; [unfold Rdiv; ring|].
    exfalso. apply H. fold a. nra. }
  assert (Er2 : 0 < r -> Rabs e = r + k) by (intros H; rewrite Er in *; unfold Rmax in *; destruct (Rle_dec 0 (Rabs e - k)); lra).
  assert (Er3 : r = 0 -> Rabs e <= k) by (intros H; rewrite Er in *; unfold Rmax in *; destruct (Rle_dec 0 (Rabs e - k)); lra).
  assert (G : 0 < a * y \/ r = 0 \/ 0 < r) by lra.
  destruct (Rle_lt_or_eq_dec 0 r Hr) as [R1|R1].
  - specialize (Er2 R1). split.
    + replace u with (e + st s) by (unfold e; ring).
      cut (e * z - k * Rabs z + a * y * (- np_sign e * z) <= (r - a * y) * y). { unfold np_sign. destruct (Rlt_dec 0 e); [|destruct (Rlt_dec e 0)]; intros; nra. }
      assert (0 < Rabs e) by lra. pose proof (Rle_abs z) as Z1. pose proof (Rle_abs (- z)) as Z2. rewrite Rabs_Ropp in Z2.
      unfold np_sign. destruct (Rlt_dec 0 e) as [P|P]; [|destruct (Rlt_dec e 0) as [Q|Q]].
      * rewrite (Rabs_right e) in Er2 by lra. rewrite Er2. assert ((r + k - a * y) * z <= (r + k - a * y) * Rabs z) by (apply Rmult_le_compat_l; lra).
        replace (- (1) * z) with (- z) by ring. lra.
      * rewrite (Rabs_left e) in Er2 by lra. replace e with (- (r + k)) by lra. assert ((r + k - a * y) * - z <= (r + k - a * y) * Rabs z) by (apply Rmult_le_compat_l; lra).
        replace (- (-1) * z) with z by ring. lra.
      * assert (e = 0) by lra. rewrite H0, Rabs_R0 in H. lra.
    + replace u with (e + st s) by (unfold e; ring). unfold np_sign. destruct (Rlt_dec 0 e) as [P|P]; [|destruct (Rlt_dec e 0) as [Q|Q]].
      * rewrite (Rabs_right e) in Er2 by lra. rewrite Rmult_1_l, (Rabs_right y) by lra. replace e with (r + k) by lra. field.
      * rewrite (Rabs_left e) in Er2 by lra. replace (-1 * y) with (- y) by ring. rewrite Rabs_Ropp, (Rabs_right y) by lra. replace e with (- (r + k)) by lra. field.
      * exfalso. assert (E : e = 0) by lra. rewrite E, Rabs_R0 in Er2. lra.
  - symmetry in R1. rewrite (Ey0 R1), R1. rewrite Rmult_0_r, Rabs_R0. specialize (Er3 R1). apply abs_le_iff in Er3. split; [|field].
    replace u with (e + st s) by (unfold e; ring). assert (e * z <= k * Rabs z) by (unfold Rabs; destruct (Rcase_abs z); nra). lra.
Qed.

(** * The whole array *)
Definition sep_B (s : sep) (sg : R) : R := match sr s with Some rho => 4 * rho ^ 2 / sg | None => 0 end.
Definition sep_C (s : sep) (sg : R) : R := match sr s with Some _ => 0 | None => 2 / (sa s * sg) end.
Definition sep_spec (m : nat) (sg : vec) (S : nat -> sep) : dspec :=
  mkD (fun z => forall i, (i < m)%nat -> sep_dom (S i) (z i)) (fun z => rsum m (fun i => sep_conj (S i) (z i))) (fun u => rsum m (fun i => sep_val (S i) (u i)))
    (rsum m (fun i => sep_B (S i) (sg i))) (rsum m (fun i => sep_C (S i) (sg i))).

Lemma cont_abs d f v : cont d f v -> cont d (fun u => Rabs (f u)) v.
Proof.
  intros H eps He. destruct (H eps He) as (del & Hd & Hc). exists del. split; [exact Hd|]. intros u Hu. eapply Rle_lt_trans; [apply Rabs_triang_inv2|]. apply Hc, Hu.
Qed.
Lemma sep_spec_ok m sg mask step S :
  (forall i, (i < m)%nat -> sep_ok (S i) /\ 0 < sg i /\ (mask_at mask i = 0 -> sr (S i) = Some 0)) ->
  (forall p u i, (i < m)%nat -> step p u i = sep_prox (S i) (sg i) (p i) (u i)) ->
  dspec_ok m sg mask step (sep_spec m sg S).
Proof.
  intros HS Hst. unfold dspec_ok, sep_spec. cbn [ds_dom ds_conj ds_val ds_B ds_C].
  assert (B0 : forall i, (i < m)%nat -> 0 <= sep_B (S i) (sg i)).
  { intros i Hi. destruct (HS i Hi) as (_ & Hg & _). unfold sep_B. destruct (sr (S i)); [|lra]. apply Rdiv_le_0_compat; [|exact Hg]. pose proof (pow2_ge_0 r). lra. }
  assert (C0 : forall i, (i < m)%nat -> 0 <= sep_C (S i) (sg i)).
  { intros i Hi. destruct (HS i Hi) as ((Ha & _ & Hr) & Hg & _). unfold sep_C. destruct (sr (S i)); [lra|]. apply Rdiv_le_0_compat; [lra|]. apply Rmult_lt_0_compat; assumption. }
  split; [|split; [|split; [|split; [|split; [|split; [|split; [|split; [|split]]]]]]]].
  - intros p u. split.
    + intros i Hi. rewrite Hst by exact Hi. apply clip_dom, HS, Hi.
    + intros Y HY. rewrite <- rsum_plus, <- rsum_plus. apply rsum_le. intros i Hi. rewrite (Hst p u i Hi). apply sep_vi; [apply HS, Hi|apply HS, Hi|apply HY, Hi].
  - intros u z Hz. rewrite <- rsum_minus. apply rsum_le. intros i Hi. destruct (HS i Hi) as (Hok & _). destruct (sep_strong (S i) (u i) (z i) Hok (Hz i Hi)) as [A _].
    assert (0 <= sa (S i) / 2 * (sep_max (S i) (u i) - z i) ^ 2) by (apply Rmult_le_pos; [destruct Hok; lra|apply pow2_ge_0]). lra.
  - intros u. exists (fun i => sep_max (S i) (u i)). split; [intros i Hi; apply sep_mag_facts, HS, Hi|]. split.
    + rewrite <- rsum_minus. apply rsum_ext. intros i Hi. destruct (HS i Hi) as (Hok & _). apply (sep_strong (S i) (u i) (sep_max (S i) (u i)) Hok). apply sep_mag_facts, Hok.
    + intros z Hz. rewrite <- rsum_minus, <- rsum_minus. set (g := fun i => sep_val (S i) (u i) - (u i * z i - sep_conj (S i) (z i))).
      assert (G0 : forall i, (i < m)%nat -> sa (S i) / 2 * (sep_max (S i) (u i) - z i) ^ 2 <= g i).
      { intros i Hi. destruct (HS i Hi) as (Hok & _). destruct (sep_strong (S i) (u i) (z i) Hok (Hz i Hi)) as [A _]. unfold g. lra. }
      assert (G1 : forall i, (i < m)%nat -> 0 <= g i).
      { intros i Hi. eapply Rle_trans; [|apply G0, Hi]. destruct (HS i Hi) as ((Ha & _) & _). apply Rmult_le_pos; [lra|apply pow2_ge_0]. }
      change (rsum m (fun i => (sep_max (S i) (u i) - z i) ^ 2 / sg i) <= rsum m (fun i => sep_B (S i) (sg i)) + rsum m (fun i => sep_C (S i) (sg i)) * rsum m g).
      rewrite (Rmult_comm (rsum m (fun i => sep_C (S i) (sg i)))), <- rsum_scal, <- rsum_plus. apply rsum_le. intros i Hi.
      pose proof (rsum_term_le m g i G1 Hi) as Gi. specialize (G0 i Hi). specialize (G1 i Hi). specialize (B0 i Hi). specialize (C0 i Hi). pose proof (Hz i Hi) as Hzi.
      destruct (HS i Hi) as (Hok & Hg & _). pose proof (proj1 (proj2 (proj2 (sep_mag_facts (S i) (u i) Hok)))) as Hmd. unfold sep_ok, sep_B, sep_C, sep_dom in *. destruct (sr (S i)) as [rho|].
      * rewrite Rmult_0_r, Rplus_0_r. unfold Rdiv. apply Rmult_le_compat_r; [left; apply Rinv_0_lt_compat, Hg|]. apply abs_le_iff in Hzi, Hmd. nra.
      * destruct Hok as (Ha & _ & Ha'). rewrite Rplus_0_l. set (q := (sep_max (S i) (u i) - z i) ^ 2) in *.
        apply Rle_trans with (g i * (2 / (sa (S i) * sg i))); [|apply Rmult_le_compat_r; [exact C0|exact Gi]].
        replace (q / sg i) with (sa (S i) / 2 * q * (2 / (sa (S i) * sg i))) by (field; lra); apply Rmult_le_compat_r; [exact C0|exact G0].
  - intros t y y' Ht Hy Hy'. split.
    + intros i Hi. specialize (Hy i Hi). specialize (Hy' i Hi). unfold sep_dom, lc in *. destruct (sr (S i)); [|exact I]. apply abs_le_iff in Hy, Hy'. apply abs_le_iff. split; nra.
    + rewrite <- !rsum_scal, <- rsum_plus. apply rsum_le. intros i Hi. destruct (HS i Hi) as ((Ha & Hk & _) & _). unfold sep_conj, lc.
      pose proof (sq_convex t (y i) (y' i) Ht) as Q. assert (Ab : Rabs (t * y i + (1 - t) * y' i) <= t * Rabs (y i) + (1 - t) * Rabs (y' i)).
      { eapply Rle_trans; [apply Rabs_triang|]. rewrite !Rabs_mult, (Rabs_right t), (Rabs_right (1 - t)) by lra. lra. }
      apply (Rmult_le_compat_l (sa (S i)) _ _ Ha) in Q. apply (Rmult_le_compat_l (sk (S i)) _ _ Hk) in Ab. lra.
  - intros u v Hc Hu i Hi. unfold sep_dom in *. destruct (sr (S i)) as [rho|] eqn:E; [|exact I].
    cut (Rabs (v i) + - rho <= 0); [lra|]. apply (cluster_le0 m u v (fun w => Rabs (w i) + - rho) Hc); [apply cont_plus; [apply cont_abs, cont_coord, Hi|apply cont_const]|].
    intros k. specialize (Hu k i Hi). rewrite E in Hu. lra.
  - intros v. apply (cont_rsum m m (fun i z => sep_conj (S i) (z i))). intros i Hi. unfold sep_conj. apply cont_plus; [apply cont_plus|].
    + apply (cont_ext _ (fun z => sa (S i) / 2 * z i ^ 2)); [intros; field|]. apply cont_scal, cont_sq, Hi.
    + apply cont_scal, cont_abs, cont_coord, Hi.
    + apply cont_scal, cont_coord, Hi.
  - intros i Hi. destruct (HS i Hi) as ((_ & _ & Hr) & _). unfold sep_dom, vzeros. destruct (sr (S i)); [rewrite Rabs_R0; exact Hr|exact I].
  - intros z z' Hz E. split; [intros i Hi; rewrite <- (E i Hi); apply Hz, Hi|]. apply rsum_ext. intros i Hi. rewrite (E i Hi). reflexivity.
  - intros z i Hz Hi Em. specialize (Hz i Hi). destruct (HS i Hi) as (_ & _ & H0). unfold sep_dom in Hz. rewrite (H0 Em) in Hz. apply abs_le_iff in Hz. lra.
  - split; apply rsum_nonneg; assumption.
Qed.

(** * The data terms of the code *)
(** what each data term measures of one residual [r] (projection plus background minus data) *)
Definition pixel_loss (k : kind) (sg : vec) (i : nat) (r : R) : R :=
  match k with
  | K_l2 => r ^ 2 / 2
  | K_wl2 w => w i * r ^ 2 / 2
  | K_l1 => Rabs r
  | K_Huber e None => if Rle_dec (Rabs r) (e i) then r ^ 2 / (2 * e i) else Rabs r - e i / 2
  | K_l2b e => Rmax 0 (Rabs r - sqrt (e i)) ^ 2 / (2 * e i)
  | K_l1b e => Rmax 0 (Rabs r - e i / sg i)
  | _ => 0
  end.
Definition kind_ok (k : kind) (m : nat) : Prop :=
  match k with
  | K_l2 | K_l1 => True
  | K_wl2 w => forall i, (i < m)%nat -> 0 <= w i
  | K_Huber e None | K_l1b e => forall i, (i < m)%nat -> 0 <= e i
  | K_l2b e => forall i, (i < m)%nat -> 0 < e i
  | _ => False
  end.
(** data loss over the valid pixels plus regularisation *)
Definition loss_objective (P : problem) (M : mat) (rs : list rspec) (l : option R) (x : vec) : R :=
  rsum (p_m P) (fun i => mask_at (train_mask P) i * pixel_loss (dt_kind (p_dterm P)) (pdhg_sigma P l) i (mv (p_n P) M x i - target P i))
  + lsum rs (fun r => rs_value (p_n P) r x).

Definition kind_sep (k : kind) (sg : vec) (mask : option vec) (t : vec) (i : nat) : sep :=
  if Req_EM_T (mask_at mask i) 0 then mkSep 1 0 0 (Some 0) else
  match k with
  | K_wl2 w => if Req_EM_T (w i) 0 then mkSep 1 0 0 (Some 0) else mkSep (/ w i) 0 (t i) None
  | K_l1 => mkSep 0 0 (t i) (Some 1)
  | K_Huber e None => mkSep (e i) 0 (t i) (Some 1)
  | K_l2b e => mkSep (e i) (sqrt (e i)) (t i) None
  | K_l1b e => mkSep 0 (e i / sg i) (t i) (Some 1)
  | _ => mkSep 1 0 (t i) None
  end.
Lemma soft0 v : soft_threshold1 v 0 = v.
Proof. unfold soft_threshold1, np_sign, np_fmax. pose proof (Rabs_pos v). rewrite Rminus_0_r, Rmax_left by lra. unfold Rabs. destruct (Rcase_abs v), (Rlt_dec 0 v), (Rlt_dec v 0); lra. Qed.
Lemma clip1 v : v / np_fmax (Rabs v) 1 * 1 = sep_clip (Some 1) v.
Proof.
  unfold np_fmax. destruct (clip_cases 1 v ltac:(lra)) as [[A E]|[[A E]|[A E]]]; rewrite E.
  - rewrite Rmax_right by lra. field.
  - rewrite (Rabs_right v) by lra. rewrite Rmax_left by lra. field. lra.
  - rewrite (Rabs_left v) by lra. rewrite Rmax_left by lra. field. lra.
Qed.
Lemma clip0 v : sep_clip (Some 0) v = 0.
Proof. unfold sep_clip, Rmax, Rmin. destruct (Rle_dec 0 v), (Rle_dec (- 0) 0); try lra; destruct (Rle_dec (- 0) v); lra. Qed.
Lemma kind_sep_step P l p u i : kind_ok (dt_kind (p_dterm P)) (p_m P) -> binary_mask (train_mask P) -> (i < p_m P)%nat -> 0 < pdhg_sigma P l i ->
  data_step P l p u i = sep_prox (kind_sep (dt_kind (p_dterm P)) (pdhg_sigma P l) (train_mask P) (target P) i) (pdhg_sigma P l i) (p i) (u i).
Proof.
  intros Hk Hb Hi Hs. unfold data_step. set (sg := pdhg_sigma P l) in *.
  assert (Em : forall v, mul_mask (train_mask P) v i = mask_at (train_mask P) i * v i) by (intros v; unfold mul_mask, mask_at; destruct (train_mask P); ring).
  rewrite Em. unfold kind_sep. destruct (Req_EM_T (mask_at (train_mask P) i) 0) as [E|E].
  { rewrite E, Rmult_0_l. unfold sep_prox. cbn [sr]. symmetry. apply clip0. }
  assert (E1 : mask_at (train_mask P) i = 1) by (destruct (Hb i); [contradiction|assumption]). rewrite E1, Rmult_1_l.
  unfold pdhg_dt, assigned, proximal_dual, assign_data. cbn [dt_kind dt_sigma1 dt_sigma_sqrt_error dt_one_sigma_error dt_data dt_sigma_data].
  set (D := update_dual _ p u).
  assert (ED : D i = p i + sg i * (u i + back_at (dt_background (p_dterm P)) i)).
  { unfold D, update_dual, add_background, back_at. cbn [dt_background dt_sigma]. fold sg. destruct (dt_background (p_dterm P)); ring. }
  assert (Et : sg i * target P i = sg i * p_b P i - sg i * back_at (dt_background (p_dterm P)) i) by (unfold target; ring).
  assert (Ed : D i - sg i * p_b P i = p i + sg i * (u i - target P i)) by (rewrite ED; lra).
  destruct (dt_kind (p_dterm P)) as [|w|e|e ax| |grp|e|] eqn:Ek; cbn [kind_ok] in Hk; try contradiction; unfold sub_sigma_data; cbn [dt_data dt_sigma_data compute_sigma_data compute_sigma1]; fold sg.
  - unfold sep_prox. cbn [sr sk sa st sep_clip]. rewrite Rmult_0_r, soft0, Ed, Rmult_1_r. unfold Rdiv. ring.
  - specialize (Hk i Hi). unfold invalid_weight. destruct (Req_EM_T (w i) 0) as [Ew|Ew].
    + unfold sep_prox. cbn [sr]. rewrite clip0. ring.
    + unfold sep_prox. cbn [sr sk sa st sep_clip]. rewrite Rmult_0_r, soft0, Ed. field. split; [exact Ew|]. nra.
  - specialize (Hk i Hi). unfold sep_prox. cbn [sr sk sa st sep_clip]. unfold soft_threshold. cbn [dt_data dt_sigma_data]. rewrite Ed. unfold Rdiv. ring.
  - destruct ax; [contradiction|]. specialize (Hk i Hi). unfold sep_prox. cbn [sr sk sa st]. rewrite Rmult_0_r, soft0, <- clip1, Ed. unfold np_fmax. rewrite Rmax_comm, Rmult_1_r.
    replace ((p i + sg i * (u i - target P i)) * (1 / (1 + sg i * e i))) with ((p i + sg i * (u i - target P i)) / (1 + sg i * e i)) by (unfold Rdiv; ring). reflexivity.
  - unfold sep_prox, hook_threshold, inner_norm. cbn [sr sk sa st]. rewrite !Rmult_0_r, soft0, Ed. unfold vones. rewrite clip1. f_equal. field.
  - specialize (Hk i Hi). unfold sep_prox, hook_threshold, inner_norm, soft_threshold. cbn [sr sk sa st dt_data dt_sigma_data]. rewrite !Rmult_0_r, Ed. unfold vones. rewrite clip1. f_equal.
    replace (sg i * (e i / sg i)) with (e i) by (field; lra). field.
Qed.
Lemma kind_sep_ok P l i : kind_ok (dt_kind (p_dterm P)) (p_m P) -> (i < p_m P)%nat -> 0 < pdhg_sigma P l i ->
  let s := kind_sep (dt_kind (p_dterm P)) (pdhg_sigma P l) (train_mask P) (target P) i in
  sep_ok s /\ 0 < pdhg_sigma P l i /\ (mask_at (train_mask P) i = 0 -> sr s = Some 0).
Proof.
  intros Hk Hi Hs s. split; [|split; [exact Hs|]].
  - unfold s, kind_sep, sep_ok. destruct (Req_EM_T (mask_at (train_mask P) i) 0); [cbn; lra|].
    destruct (dt_kind (p_dterm P)) as [|w|e|e ax| |grp|e|]; cbn [kind_ok] in Hk; try contradiction.
    + cbn. lra.
    + specialize (Hk i Hi). destruct (Req_EM_T (w i) 0); cbn; [lra|]. assert (0 < / w i) by (apply Rinv_0_lt_compat; lra). lra.
    + specialize (Hk i Hi). cbn. pose proof (sqrt_pos (e i)). lra.
    + destruct ax; [contradiction|]. specialize (Hk i Hi). cbn. lra.
    + cbn. lra.
    + specialize (Hk i Hi). cbn. pose proof (Rdiv_le_0_compat (e i) (pdhg_sigma P l i) Hk Hs). lra.
  - intros E. unfold s, kind_sep. destruct (Req_EM_T (mask_at (train_mask P) i) 0); [reflexivity|contradiction].
Qed.
Lemma kind_sep_val P l i v : kind_ok (dt_kind (p_dterm P)) (p_m P) -> binary_mask (train_mask P) -> (i < p_m P)%nat -> 0 < pdhg_sigma P l i ->
  sep_val (kind_sep (dt_kind (p_dterm P)) (pdhg_sigma P l) (train_mask P) (target P) i) v =
  mask_at (train_mask P) i * pixel_loss (dt_kind (p_dterm P)) (pdhg_sigma P l) i (v - target P i).
Proof.
  intros Hk Hb Hi Hs. set (sg := pdhg_sigma P l) in *.
  assert (Z : forall a k t u, 0 < a -> sep_val (mkSep a k t (Some 0)) u = 0).
  { intros a k t u Ha. unfold sep_val, sep_mag. cbn [sr sa]. destruct (Rle_dec (sep_res _ u) (a * 0)) as [H|H]; [|field].
    assert (E : sep_res (mkSep a k t (Some 0)) u = 0) by (pose proof (Rmax_l 0 (Rabs (u - st (mkSep a k t (Some 0))) - sk (mkSep a k t (Some 0)))); unfold sep_res in *; lra). rewrite E. unfold Rdiv. ring. }
  unfold kind_sep. destruct (Req_EM_T (mask_at (train_mask P) i) 0) as [E|E]; [rewrite Z by lra; rewrite E; ring|].
  assert (E1 : mask_at (train_mask P) i = 1) by (destruct (Hb i); [contradiction|assumption]). rewrite E1, Rmult_1_l.
  set (r := v - target P i).
  assert (A2 : Rabs r * Rabs r = r ^ 2) by (rewrite <- Rabs_mult, Rabs_right; [ring|nra]). pose proof (Rabs_pos r) as Ar.
  assert (R0 : forall a o, sep_res (mkSep a 0 (target P i) o) v = Rabs r) by (intros; unfold sep_res; cbn [st sk]; fold r; rewrite Rminus_0_r, Rmax_right by lra; reflexivity).
  destruct (dt_kind (p_dterm P)) as [|w|e|e ax| |grp|e|]; cbn [kind_ok] in Hk; try contradiction; cbn [pixel_loss].
  - unfold sep_val, sep_mag. cbn [sr sa]. rewrite R0. rewrite <- A2. field.
  - specialize (Hk i Hi). destruct (Req_EM_T (w i) 0) as [Ew|Ew]; [rewrite Z by lra; rewrite Ew; unfold Rdiv; ring|].
    unfold sep_val, sep_mag. cbn [sr sa]. rewrite R0. rewrite <- A2. field. exact Ew.
  - specialize (Hk i Hi). unfold sep_val, sep_mag. cbn [sr sa]. unfold sep_res. cbn [st sk]. fold r. field. lra.
  - destruct ax; [contradiction|]. specialize (Hk i Hi). unfold sep_val, sep_mag. cbn [sr sa]. rewrite R0. rewrite Rmult_1_r. destruct (Rle_dec (Rabs r) (e i)) as [H|H]; [|field].
    destruct (Req_dec (e i) 0) as [E0|E0].
    + assert (Er : Rabs r = 0) by lra. rewrite <- A2, Er. unfold Rdiv. ring.
    + rewrite <- A2. field. exact E0.
  - unfold sep_val, sep_mag. cbn [sr sa]. rewrite R0. destruct (Rle_dec (Rabs r) (0 * 1)) as [H|H]; [|field]. assert (Er : Rabs r = 0) by lra. rewrite Er. unfold Rdiv. ring.
  - specialize (Hk i Hi). unfold sep_val, sep_mag. cbn [sr sa]. unfold sep_res. cbn [st sk]. fold r. destruct (Rle_dec (Rmax 0 (Rabs r - e i / sg i)) (0 * 1)) as [H|H]; [|field].
    pose proof (Rmax_l 0 (Rabs r - e i / sg i)) as Hm. assert (Er : Rmax 0 (Rabs r - e i / sg i) = 0) by lra. rewrite Er. unfold Rdiv. ring.
Qed.

(** * C165 *)
(** the setting: any of the data terms above, regularisers of the code, masks, limits, either kind of step sizes, no tolerance *)
Definition loss_setting (P : problem) (M : mat) (rs : list rspec) (l : option R) : Prop :=
  p_op P = mat_op (p_m P) (p_n P) M /\ p_regs P = map (model_reg (p_n P)) rs /\ Forall rs_ok rs /\
  kind_ok (dt_kind (p_dterm P)) (p_m P) /\ limits_ok P /\ binary_mask (p_xmask P) /\ binary_mask (train_mask P) /\ pd_steps_ok P M rs l /\ p_tol P = None.
Definition kind_spec (P : problem) (l : option R) : dspec :=
  sep_spec (p_m P) (pdhg_sigma P l) (kind_sep (dt_kind (p_dterm P)) (pdhg_sigma P l) (train_mask P) (target P)).
Lemma setting_spec P M rs l : loss_setting P M rs l ->
  dspec_ok (p_m P) (pdhg_sigma P l) (train_mask P) (data_step P l) (kind_spec P l) /\
  forall x, data_objective P M (kind_spec P l) rs x = loss_objective P M rs l x.
Proof.
  intros (H1 & H2 & H3 & H4 & H5 & H6 & H7 & H8 & H9). split.
  - apply sep_spec_ok.
    + intros i Hi. apply kind_sep_ok; try assumption. apply H8, Hi.
    + intros p u i Hi. apply kind_sep_step; try assumption. apply H8, Hi.
  - intros x. unfold data_objective, loss_objective, kind_spec, sep_spec. cbn [ds_val]. f_equal. apply rsum_ext. intros i Hi. apply kind_sep_val; try assumption. apply H8, Hi.
Qed.
(** every level set of the objective is bounded *)
Definition bounded_loss (P : problem) (M : mat) (rs : list rspec) (l : option R) : Prop :=
  forall L, exists Rb, forall y, obeys_limits P y -> loss_objective P M rs l y <= L -> forall j, (j < p_n P)%nat -> Rabs (y j) <= Rb.
Lemma obj_ext P M rs l : loss_setting P M rs l -> data_objective P M (kind_spec P l) rs = loss_objective P M rs l.
Proof. intros HP. apply functional_extensionality, (setting_spec P M rs l HP). Qed.
Theorem C165_converges : forall P M rs l, loss_setting P M rs l -> bounded_loss P M rs l ->
  exists X C, minimises (obeys_limits P) (loss_objective P M rs l) X /\ 0 <= C /\
    forall it, (2 <= it)%nat -> let x := fst (pdhg_call P l it) in
      obeys_limits P x /\ loss_objective P M rs l x <= loss_objective P M rs l X + C / sqrt (INR it).
Proof.
  intros P M rs l HP Hb. pose proof HP as (H1 & H2 & H3 & H4 & H5 & H6 & H7 & H8 & H9). rewrite <- (obj_ext P M rs l HP).
  apply (d_exists P M rs l (kind_spec P l)); try assumption; [apply (setting_spec P M rs l HP)|]. unfold bounded_levels. rewrite (obj_ext P M rs l HP). exact Hb.
Qed.
Lemma limits_bounded P lo up : binary_mask (p_xmask P) -> p_lower P = Some lo -> p_upper P = Some up ->
  forall y j, obeys_limits P y -> (j < p_n P)%nat -> Rabs (y j) <= rsum (p_n P) (fun j => Rabs (lo j) + Rabs (up j)).
Proof.
  intros Hbx Hl Hu y j Hy Hj. apply Rle_trans with (Rabs (lo j) + Rabs (up j)).
  2:{ apply (rsum_term_le (p_n P) (fun j => Rabs (lo j) + Rabs (up j))); [|exact Hj]. intros k _. pose proof (Rabs_pos (lo k)). pose proof (Rabs_pos (up k)). lra. }
  unfold obeys_limits in Hy. rewrite Hl, Hu in Hy. destruct (Hbx j) as [E|E].
  - rewrite (feasible_out _ _ _ _ _ j Hy Hj E), Rabs_R0. pose proof (Rabs_pos (lo j)). pose proof (Rabs_pos (up j)). lra.
  - destruct (feasible_in _ _ _ _ _ j Hy Hj E) as [A B]. pose proof (Rle_abs (up j)). pose proof (Rle_abs (- lo j)) as G. rewrite Rabs_Ropp in G.
    pose proof (Rabs_pos (lo j)). pose proof (Rabs_pos (up j)). unfold Rabs at 1. destruct (Rcase_abs (y j)); lra.
Qed.
Theorem C165_with_both_limits : forall P M rs l lo up, loss_setting P M rs l -> p_lower P = Some lo -> p_upper P = Some up ->
  exists X C, minimises (obeys_limits P) (loss_objective P M rs l) X /\ 0 <= C /\
    forall it, (2 <= it)%nat -> let x := fst (pdhg_call P l it) in
      obeys_limits P x /\ loss_objective P M rs l x <= loss_objective P M rs l X + C / sqrt (INR it).
Proof.
  intros P M rs l lo up HP Hl Hu. apply C165_converges; [exact HP|]. intros L. exists (rsum (p_n P) (fun j => Rabs (lo j) + Rabs (up j))).
  intros y Hy _ j Hj. apply (limits_bounded P lo up); try assumption. apply HP.
Qed.
(** only one minimiser: the volumes converge to it *)
Theorem C165_volume_converges : forall P M rs l X, loss_setting P M rs l -> bounded_loss P M rs l ->
  minimises (obeys_limits P) (loss_objective P M rs l) X ->
  (forall y, minimises (obeys_limits P) (loss_objective P M rs l) y -> veq (p_n P) y X) ->
  forall eps, 0 < eps -> exists N, forall it, (N <= it)%nat -> forall j, (j < p_n P)%nat -> Rabs (fst (pdhg_call P l it) j - X j) < eps.
Proof.
  intros P M rs l X HP Hb HX Hu. pose proof HP as (H1 & H2 & H3 & H4 & H5 & H6 & H7 & H8 & H9).
  apply (d_volume P M rs l (kind_spec P l)); try assumption; try (rewrite (obj_ext P M rs l HP); assumption).
  - apply (setting_spec P M rs l HP).
  - unfold bounded_levels. rewrite (obj_ext P M rs l HP). exact Hb.
Qed.
(** Non-vacuity: one pixel, any of the data terms, an l1 regulariser and both limits. *)
Definition loss_demo (k : kind) : problem :=
  mkProblem 1 1 (mat_op 1 1 (fun _ _ => 1)) (fun _ => 2) None (Some vzeros) (Some (fun _ => 10)) None None None
    None 1 [model_reg 1 pd_demo_reg] (new_dterm k None) (new_dterm k None).
Example C165_example : forall k, kind_ok k 1 -> loss_setting (loss_demo k) (fun _ _ => 1) [pd_demo_reg] None /\
  kind_ok (K_Huber (fun _ => 1) None) 1 /\ kind_ok K_l1 1 /\ kind_ok (K_wl2 (fun _ => 3)) 1 /\ kind_ok (K_l1b (fun _ => 1)) 1 /\ kind_ok (K_l2b (fun _ => 1)) 1.
Proof.
  intros k Hk. destruct C150_example as ((E1 & E2 & E3 & E4 & E5 & E6 & E7 & E8 & E9 & E10 & E11 & E12) & _). split.
  - split; [reflexivity|]. split; [reflexivity|]. split; [exact E3|]. split; [exact Hk|]. split; [exact E6|]. split; [exact E7|]. split; [exact E8|]. split; [|reflexivity].
    apply (diag_steps_ok (loss_demo k) (fun _ _ => 1) [pd_demo_reg]); try reflexivity; assumption.
  - cbn. repeat split; intros; lra.
Qed.
(** the tolerance of the l1 term with background is divided by the step size: with the default relaxation and a single pixel seen
    with weight 10, PDHG never leaves the initial value 1 although its residual (10) exceeds the requested tolerance (1) and 0 fits exactly *)
Definition l1b_demo : problem :=
  mkProblem 1 1 (mat_op 1 1 (fun _ _ => 10)) (fun _ => 0) (Some (fun _ => 1)) None None None None None
    None (19 / 20) [] (new_dterm (K_l1b (fun _ => 1)) None) (new_dterm (K_l1b (fun _ => 1)) None).
Theorem C165_l1b_tolerance_refuted : (forall it, fst (pdhg_call l1b_demo None it) 0%nat = 1) /\
  (forall x, rsum 1 (fun i => Rmax 0 (Rabs (mv 1 (fun _ _ => 10) x i - 0) - 1)) = Rmax 0 (Rabs (10 * x 0%nat) - 1)) /\
  Rmax 0 (Rabs (10 * 1) - 1) = 9 /\ Rmax 0 (Rabs (10 * 0) - 1) = 0.
Proof.
  assert (S0 : pdhg_sigma l1b_demo None 0%nat = 19 / 20 / 10).
  { unfold pdhg_sigma, diag_sigma. cbn [p_relax l1b_demo]. f_equal.
    assert (A : raw_sigma (p_op l1b_demo) (p_xmask l1b_demo) 0%nat = 10).
    { unfold raw_sigma, ones_masked, mul_mask, mv, mat_abs, vones. cbn -[Rabs]. unfold mv, mat_abs, vones. cbn [rsum]. rewrite (Rabs_right 10) by lra. rewrite Rabs_right; lra. }
    assert (SS : safe_sigma l1b_demo) by (apply scaling_safe_small; change (p_m l1b_demo) with 1%nat; cbn [rmax]; rewrite A; lra).
    destruct (guard_safe _ _ 0%nat SS ltac:(cbn; lia)) as [G1 G2].
    unfold guard_small. change (p_m l1b_demo) with 1%nat. change (raw_sigma (mat_op 1 1 (fun _ _ => 10)) None) with (raw_sigma (p_op l1b_demo) (p_xmask l1b_demo)).
    cbn [rmax]. rewrite A. destruct (Rlt_dec _ _) as [H|H]; [exfalso; lra|reflexivity]. }
  split; [|split; [|split]].
  - intros it. rewrite (pdhg_no_tol l1b_demo None it eq_refl).
    cut (pd_x (pdhg_iterate l1b_demo None it) 0%nat = 1 /\ pd_xrelax (pdhg_iterate l1b_demo None it) 0%nat = 1 /\ pd_p (pdhg_iterate l1b_demo None it) 0%nat = 0); [tauto|].
    induction it as [|it (X1 & X2 & X3)]; [cbn; auto|]. set (s := pdhg_iterate l1b_demo None it) in *.
    change (pdhg_iterate l1b_demo None (S it)) with (pdhg_step l1b_demo None s).
    assert (Ep : pd_p (pdhg_step l1b_demo None s) 0%nat = 0).
    { change (pd_p (pdhg_step l1b_demo None s)) with (data_step l1b_demo None (pd_p s) (mv 1 (fun _ _ => 10) (pd_xrelax s))).
      rewrite kind_sep_step; [|cbn; intros; lra|intros i; right; reflexivity|cbn; lia|rewrite S0; lra].
      unfold kind_sep. cbn [dt_kind l1b_demo p_dterm new_dterm]. destruct (Req_EM_T _ 0) as [E|E]; [unfold mask_at, train_mask in E; cbn in E; lra|].
      rewrite S0. unfold sep_prox. cbn [sr sa sk st]. rewrite X3.
      replace (mv 1 (fun _ _ => 10) (pd_xrelax s) 0%nat) with 10 by (unfold mv; cbn [rsum]; rewrite X2; ring).
      replace (target l1b_demo 0%nat) with 0 by (unfold target, back_at; cbn; ring).
      destruct (soft_cases (0 + 19 / 20 / 10 * (10 - 0)) (19 / 20 / 10 * (1 / (19 / 20 / 10))) ltac:(lra)) as [[B _]|[[B _]|[_ B]]]; [exfalso; lra|exfalso; lra|].
      rewrite B. unfold Rdiv. rewrite Rmult_0_l. unfold sep_clip, Rmin, Rmax. destruct (Rle_dec 1 0); [lra|]. destruct (Rle_dec (- (1)) 0); lra. }
    assert (Ex : pd_x (pdhg_step l1b_demo None s) 0%nat = 1).
    { pose proof (x_S l1b_demo (fun _ _ => 10) [] None eq_refl eq_refl it) as H. change (pdhg_iterate l1b_demo None (S it)) with (pdhg_step l1b_demo None s) in H. fold s in H.
      rewrite H. unfold constrain. cbn [p_lower p_upper p_xmask l1b_demo np_clip mul_mask]. rewrite X1. unfold mtv, mt, Kst. cbn [p_m l1b_demo tot rsum Nat.add]. unfold put. cbn [Nat.ltb Nat.leb p_m l1b_demo].
      rewrite Ep. ring. }
    split; [exact Ex|]. split; [|exact Ep].
    change (pd_xrelax (pdhg_step l1b_demo None s) 0%nat) with (pd_x (pdhg_step l1b_demo None s) 0%nat + (pd_x (pdhg_step l1b_demo None s) 0%nat - pd_x s 0%nat)). rewrite Ex, X1. ring.
  - intros x. unfold mv. cbn [rsum]. rewrite !Rplus_0_l, Rminus_0_r. reflexivity.
  - rewrite Rabs_right by lra. rewrite Rmax_right; lra.
  - rewrite Rmult_0_r, Rabs_R0. rewrite Rmax_left; lra.
Qed.
