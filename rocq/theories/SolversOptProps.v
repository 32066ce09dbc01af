(** Theorems C33 and C36: fixed points of PDHG and FISTA are minimisers. *)
From Verif Require Import Sums DataTermsModel DataTermsProofs SolversModel SolversSpec SolversGeneric SolversProps
  RegularizersModel SolversConv.

(** * Specification: a regulariser term of the objective *)
(** RS_l1: w * sum_i |(Gx)_i|;  RS_l12: w * sum_i sqrt(sum_a (Gx)_{a,i}^2) (total variation: G = gradient along
    nax axes over N pixels, stored axis-major);  RS_l2: w/2 * sum_i (Gx)_i^2. *)
Inductive rkind := RS_l1 | RS_l12 (nax N : nat) | RS_l2.
Record rspec := mkRS { rs_kind : rkind; rs_p : nat; rs_G : mat; rs_w : R; rs_s : R; rs_t : vec }.

Definition grp_norm (nax : nat) (e : nat -> R) : R := sqrt (rsum nax (fun a => e a ^ 2)).
Definition rs_value (n : nat) (r : rspec) (x : vec) : R :=
  let u := mv n (rs_G r) x in
  match rs_kind r with
  | RS_l1 => rs_w r * rsum (rs_p r) (fun i => Rabs (u i))
  | RS_l12 nax N => rs_w r * rsum N (fun i => grp_norm nax (fun a => u (a * N + i)%nat))
  | RS_l2 => rs_w r / 2 * rsum (rs_p r) (fun i => u i ^ 2)
  end.
Definition rs_ok (r : rspec) : Prop :=
  0 < rs_w r /\ 0 < rs_s r /\ match rs_kind r with RS_l12 nax N => rs_p r = (nax * N)%nat | _ => True end.

(** The data-fidelity part: half the masked squared residual. *)
Definition l2_fit (m n : nat) (M : mat) (mask : option vec) (b x : vec) : R :=
  / 2 * wres m n M (fun i => mask_at mask i) b x.

(** * The corresponding objects of the code *)
Definition model_kind (k : rkind) : kind :=
  match k with
  | RS_l1 => K_l1
  | RS_l12 nax N => K_l12 (fun i => map (fun a => (a * N + i mod N)%nat) (seq 0 nax))
  | RS_l2 => K_l2
  end.
Definition model_reg (n : nat) (r : rspec) : reg :=
  base_reg (mv n (rs_G r)) (mtv (rs_p r) (rs_G r)) (fun _ => rs_s r) (rs_t r) (fun _ => rs_w r) None (model_kind (rs_kind r)).

(** * Group lemmas *)
Lemma grp_norm_nonneg nax e : 0 <= grp_norm nax e.
Proof. apply sqrt_pos. Qed.
Lemma grp_norm_sq nax e : grp_norm nax e ^ 2 = rsum nax (fun a => e a ^ 2).
Proof. unfold grp_norm. rewrite <- Rsqr_pow2, Rsqr_sqrt; [reflexivity|]. apply rsum_nonneg. intros; apply pow2_ge_0. Qed.
Lemma grp_cs nax e f : rsum nax (fun a => e a * f a) <= grp_norm nax e * grp_norm nax f.
Proof.
  eapply Rle_trans; [apply Rle_abs|]. apply Rsqr_incr_0_var.
  2:{ apply Rmult_le_pos; apply grp_norm_nonneg. }
  rewrite <- Rsqr_abs, !Rsqr_pow2, Rpow_mult_distr, !grp_norm_sq. apply rsum_CS.
Qed.
Lemma grp_norm_scale nax c e : 0 <= c -> grp_norm nax (fun a => c * e a) = c * grp_norm nax e.
Proof.
  intros Hc. unfold grp_norm. rewrite (rsum_ext nax _ (fun a => c ^ 2 * e a ^ 2)) by (intros; ring).
  rewrite rsum_scal, sqrt_mult_alt by apply pow2_ge_0. rewrite sqrt_pow2 by exact Hc. reflexivity.
Qed.
Lemma grp_norm_ext nax e f : (forall a, (a < nax)%nat -> e a = f a) -> grp_norm nax e = grp_norm nax f.
Proof. intros H. unfold grp_norm. f_equal. apply rsum_ext. intros a Ha. rewrite (H a Ha). reflexivity. Qed.

(** fixed point of the projected dual ascent <-> subgradient of w * group norm *)
Lemma group_fixed nax w s q u : 0 < w -> 0 < s ->
  let d := fun a => q a + s * u a in
  (forall a, (a < nax)%nat -> d a / np_fmax (grp_norm nax d) w * w = q a) <->
  (forall z, w * grp_norm nax u + rsum nax (fun a => q a * (z a - u a)) <= w * grp_norm nax z).
Proof.
  intros Hw Hs d. split.
  - intros Hq z. unfold np_fmax in Hq.
    assert (Hd : forall a, (a < nax)%nat -> d a = q a + s * u a) by reflexivity.
    assert (Hqn : grp_norm nax q <= w /\ rsum nax (fun a => q a * u a) = w * grp_norm nax u).
    { destruct (Rle_lt_dec (grp_norm nax d) w) as [Hle|Hgt].
      - rewrite Rmax_right in Hq by exact Hle.
        assert (Eq : forall a, (a < nax)%nat -> q a = d a) by (intros a Ha; rewrite <- (Hq a Ha); field; lra).
        split; [rewrite (grp_norm_ext nax q d Eq); exact Hle|].
        assert (Eu : forall a, (a < nax)%nat -> u a = 0).
        { intros a Ha. pose proof (Eq a Ha) as E. unfold d in E.
          assert (E2 : s * u a = 0) by lra. apply Rmult_integral in E2. destruct E2; lra. }
        rewrite (grp_norm_ext nax u (fun _ => 0 * 0)) by (intros a Ha; rewrite (Eu a Ha); ring).
        rewrite grp_norm_scale by lra. rewrite rsum_zero; [ring|]. intros a Ha. rewrite (Eu a Ha). ring.
      - rewrite Rmax_left in Hq by lra. set (D := grp_norm nax d) in *.
        assert (Eq : forall a, (a < nax)%nat -> q a = w / D * d a) by (intros a Ha; rewrite <- (Hq a Ha); field; lra).
        assert (Hr : 0 < w / D) by (apply Rdiv_lt_0_compat; lra).
        assert (Hr1 : w / D < 1) by (apply Rmult_lt_reg_r with D; [lra|]; unfold Rdiv; rewrite Rmult_assoc, Rinv_l by lra; lra).
        split.
        + rewrite (grp_norm_ext nax q (fun a => w / D * d a) Eq), grp_norm_scale by lra. fold D. right. field. lra.
        + set (c := (1 - w / D) / s).
          assert (Hc : 0 <= c) by (apply Rdiv_le_0_compat; lra).
          assert (Eu : forall a, (a < nax)%nat -> u a = c * d a).
          { intros a Ha. pose proof (Eq a Ha) as E. assert (E2 : s * u a = d a - w / D * d a) by (unfold d in *; lra).
            unfold c. apply Rmult_eq_reg_l with s; [|lra]. rewrite E2. field. lra. }
          rewrite (grp_norm_ext nax u (fun a => c * d a) Eu), grp_norm_scale by exact Hc. fold D.
          rewrite (rsum_ext nax _ (fun a => (w / D * c) * (d a ^ 2))) by (intros a Ha; rewrite (Eu a Ha), (Eq a Ha); ring).
          rewrite rsum_scal, <- grp_norm_sq. fold D. field. lra. }
    destruct Hqn as [H1 H2].
    assert (rsum nax (fun a => q a * z a) <= w * grp_norm nax z).
    { eapply Rle_trans; [apply grp_cs|]. apply Rmult_le_compat_r; [apply grp_norm_nonneg|exact H1]. }
    rewrite (rsum_ext nax _ (fun a => q a * z a - q a * u a)) by (intros; ring). rewrite rsum_minus, H2. lra.
  - intros Hsub.
    (* <q,u> = w|u| and |q| <= w *)
    assert (H0 : w * grp_norm nax u <= rsum nax (fun a => q a * u a)).
    { specialize (Hsub (fun _ => 0 * 0)). rewrite grp_norm_scale in Hsub by lra.
      rewrite (rsum_ext nax _ (fun a => - (q a * u a))) in Hsub by (intros; ring). rewrite rsum_opp in Hsub. lra. }
    assert (H2 : rsum nax (fun a => q a * u a) <= w * grp_norm nax u).
    { specialize (Hsub (fun a => 2 * u a)). rewrite grp_norm_scale in Hsub by lra.
      rewrite (rsum_ext nax _ (fun a => q a * u a)) in Hsub by (intros; ring). lra. }
    assert (H1 : grp_norm nax q <= w).
    { specialize (Hsub q). rewrite (rsum_ext nax _ (fun a => q a ^ 2 - q a * u a)) in Hsub by (intros; ring).
      rewrite rsum_minus, <- grp_norm_sq in Hsub.
      assert (Hq2 : grp_norm nax q ^ 2 <= w * grp_norm nax q) by lra.
      destruct (Rle_lt_dec (grp_norm nax q) w) as [?|C]; [assumption|exfalso].
      pose proof (grp_norm_nonneg nax q). nra. }
    assert (Heq : rsum nax (fun a => q a * u a) = w * grp_norm nax u) by lra.
    destruct (Req_dec (grp_norm nax u) 0) as [Eu|Eu].
    + assert (Hu : forall a, (a < nax)%nat -> u a = 0).
      { intros a Ha. assert (E : u a ^ 2 = 0).
        { apply (rsum_nonneg_zero nax (fun a => u a ^ 2)); [intros; apply pow2_ge_0| |exact Ha].
          rewrite <- grp_norm_sq, Eu. ring. }
        apply Rsqr_0_uniq. unfold Rsqr. lra. }
      assert (Ed : forall a, (a < nax)%nat -> d a = q a) by (intros a Ha; unfold d; rewrite (Hu a Ha); ring).
      intros a Ha. rewrite (grp_norm_ext nax d q Ed). unfold np_fmax. rewrite Rmax_right by exact H1. rewrite (Ed a Ha). field. lra.
    + set (U := grp_norm nax u) in *. assert (HU : 0 < U) by (pose proof (grp_norm_nonneg nax u); fold U in H; lra).
      assert (Eq : forall a, (a < nax)%nat -> q a = w / U * u a).
      { assert (Hz : rsum nax (fun a => (q a - w / U * u a) ^ 2) <= 0).
        { rewrite (rsum_ext nax _ (fun a => (q a ^ 2 - (2 * (w / U)) * (q a * u a)) + (w / U) ^ 2 * u a ^ 2)) by (intros; ring).
          rewrite rsum_plus, rsum_minus, !rsum_scal, Heq, <- !grp_norm_sq. fold U.
          replace (2 * (w / U) * (w * U)) with (2 * w ^ 2) by (field; lra).
          replace ((w / U) ^ 2 * U ^ 2) with (w ^ 2) by (field; lra).
          pose proof (grp_norm_nonneg nax q). nra. }
        intros a Ha. assert (E : (q a - w / U * u a) ^ 2 = 0).
        { apply (rsum_nonneg_zero nax (fun a => (q a - w / U * u a) ^ 2)); [intros; apply pow2_ge_0| |exact Ha].
          apply Rle_antisym; [exact Hz|]. apply rsum_nonneg. intros; apply pow2_ge_0. }
        assert (q a - w / U * u a = 0) by (apply Rsqr_0_uniq; unfold Rsqr; lra). lra. }
      assert (Ed : forall a, (a < nax)%nat -> d a = (w / U + s) * u a) by (intros a Ha; unfold d; rewrite (Eq a Ha); ring).
      assert (Hwu : 0 < w / U) by (apply Rdiv_lt_0_compat; lra).
      assert (En : grp_norm nax d = w + s * U).
      { rewrite (grp_norm_ext nax d (fun a => (w / U + s) * u a) Ed), grp_norm_scale by lra. fold U. field. lra. }
      intros a Ha. rewrite En. unfold np_fmax. assert (0 < s * U) by (apply Rmult_lt_0_compat; lra).
      rewrite Rmax_left by lra. rewrite (Ed a Ha), (Eq a Ha). field. lra.
Qed.

(** * Reorganising axis-major sums *)
Lemma rsum_grid nax N f : rsum (nax * N) f = rsum N (fun i => rsum nax (fun a => f (a * N + i)%nat)).
Proof.
  induction nax as [|nax IH]; simpl.
  - symmetry. apply rsum_0.
  - rewrite rsum_plus, <- IH. rewrite (Nat.add_comm N (nax * N)), rsum_app. reflexivity.
Qed.

Lemma lsum_seq (f : nat -> R) n : lsum (seq 0 n) f = rsum n f.
Proof.
  assert (H : forall s, lsum (seq s n) f = rsum n (fun i => f (s + i)%nat)).
  { induction n as [|n IH]; intros s; [reflexivity|]. rewrite rsum_S_l. unfold lsum in *. simpl. rewrite IH, Nat.add_0_r. f_equal.
    apply rsum_ext. intros; f_equal; lia. }
  rewrite H. apply rsum_ext. intros; f_equal.
Qed.
Lemma lsum_map {A B} (g : A -> B) l f : lsum (map g l) f = lsum l (fun a => f (g a)).
Proof. unfold lsum. induction l; simpl; [reflexivity|]. rewrite IHl. reflexivity. Qed.

(** * The code's dual step fixes q  <->  q is a subgradient, block by block *)
Definition rs_subgrad (n : nat) (r : rspec) (x q : vec) : Prop :=
  let u := mv n (rs_G r) x in
  match rs_kind r with
  | RS_l1 => forall i z, (i < rs_p r)%nat -> rs_w r * Rabs (u i) + q i * (z - u i) <= rs_w r * Rabs z
  | RS_l12 nax N => forall i z, (i < N)%nat ->
      rs_w r * grp_norm nax (fun a => u (a * N + i)%nat) + rsum nax (fun a => q (a * N + i)%nat * (z a - u (a * N + i)%nat))
      <= rs_w r * grp_norm nax z
  | RS_l2 => forall i, (i < rs_p r)%nat -> q i = u i      (* the weight is applied in the primal update *)
  end.

Lemma grp_norm_1 (e : nat -> R) : grp_norm 1 e = Rabs (e 0%nat).
Proof. unfold grp_norm. simpl. rewrite Rplus_0_l, Rmult_1_r. rewrite <- (sqrt_Rsqr_abs (e 0%nat)). reflexivity. Qed.

Lemma dual_fixed n r x q : rs_ok r ->
  let rg := model_reg n r in
  (veq (rs_p r) (r_prox_dual rg (r_update_dual rg q x)) q) <-> rs_subgrad n r x q.
Proof.
  intros (Hw & Hs & Hk). unfold model_reg, rs_subgrad. destruct (rs_kind r) as [|nax N|] eqn:Ek; cbn zeta; simpl.
  - unfold base_prox_dual. simpl. unfold proximal_dual. simpl. unfold base_update_dual, sub_sigma_data. simpl.
    set (u := mv n (rs_G r) x).
    assert (G : forall i, (q i + rs_s r * u i) / np_fmax (Rabs (q i + rs_s r * u i)) (rs_w r) * rs_w r = q i <->
       forall z, rs_w r * Rabs (u i) + q i * (z - u i) <= rs_w r * Rabs z).
    { intros i. pose proof (group_fixed 1 (rs_w r) (rs_s r) (fun _ => q i) (fun _ => u i) Hw Hs) as G. cbv zeta in G.
      rewrite !grp_norm_1 in G. split.
      - intros E z. assert (H : forall a, (a < 1)%nat -> (q i + rs_s r * u i) / np_fmax (Rabs (q i + rs_s r * u i)) (rs_w r) * rs_w r = q i) by (intros; exact E).
        pose proof (proj1 G H (fun _ => z)) as Hz. rewrite grp_norm_1 in Hz. simpl in Hz. lra.
      - intros H. refine (proj2 G _ 0%nat _); [|lia]. intros z. rewrite grp_norm_1. simpl. rewrite Rplus_0_l. apply H. }
    split.
    + intros H i z Hi. apply G. apply (H i Hi).
    + intros H i Hi. apply G. intros z. apply H, Hi.
  - unfold base_prox_dual. simpl. unfold proximal_dual. simpl. unfold base_update_dual, sub_sigma_data. simpl.
    set (u := mv n (rs_G r) x). set (d := fun i => q i + rs_s r * u i).
    assert (Hgn : forall a i, (i < N)%nat -> group_norm (fun i => map (fun a => (a * N + i mod N)%nat) (seq 0 nax)) d (a * N + i)%nat =
       grp_norm nax (fun a => d (a * N + i)%nat)).
    { intros a i Hi. unfold group_norm, grp_norm. f_equal. rewrite lsum_map, lsum_seq. apply rsum_ext. intros b Hb.
      assert (E : ((a * N + i) mod N = i)%nat) by (rewrite Nat.add_comm, Nat.mod_add, Nat.mod_small; lia).
      rewrite E. reflexivity. }
    assert (Hidx : forall k, (k < rs_p r)%nat -> exists a i, (a < nax)%nat /\ (i < N)%nat /\ k = (a * N + i)%nat).
    { intros k Hk'. rewrite Hk in Hk'. assert (HN : N <> 0%nat) by (intros ->; lia).
      exists (k / N)%nat, (k mod N)%nat. split; [apply Nat.div_lt_upper_bound; lia|]. split; [apply Nat.mod_upper_bound; exact HN|].
      rewrite Nat.mul_comm. apply Nat.div_mod. exact HN. }
    assert (Hlt : forall a i, (a < nax)%nat -> (i < N)%nat -> (a * N + i < rs_p r)%nat) by (intros a i Ha Hi; rewrite Hk; nia).
    split.
    + intros H i z Hi. apply (proj1 (group_fixed nax (rs_w r) (rs_s r) (fun a => q (a * N + i)%nat) (fun a => u (a * N + i)%nat) Hw Hs)).
      intros a Ha. pose proof (H (a * N + i)%nat (Hlt a i Ha Hi)) as E. cbv beta in E. rewrite (Hgn a i Hi) in E. exact E.
    + intros H k Hk'. destruct (Hidx k Hk') as (a & i & Ha & Hi & ->). cbv beta. rewrite (Hgn a i Hi).
      apply (proj2 (group_fixed nax (rs_w r) (rs_s r) (fun a => q (a * N + i)%nat) (fun a => u (a * N + i)%nat) Hw Hs)); [|exact Ha].
      intros z. apply H, Hi.
  - unfold base_prox_dual. simpl. unfold proximal_dual. simpl. unfold base_update_dual, sub_sigma_data. simpl.
    set (u := mv n (rs_G r) x). split.
    + intros H i Hi. pose proof (H i Hi) as E. cbv beta in E.
      assert (E2 : q i + rs_s r * u i = q i * (1 + rs_s r)).
      { rewrite <- E at 2. field. lra. }
      assert (E3 : rs_s r * u i = rs_s r * q i) by lra. apply Rmult_eq_reg_l in E3; lra.
    + intros H i Hi. rewrite (H i Hi). field. lra.
Qed.

(** a blockwise subgradient gives the global subgradient inequality of the term *)
Lemma subgrad_global n r x q y : rs_ok r -> rs_subgrad n r x q ->
  rs_value n r x + dot n (r_update_primal (model_reg n r) q) (fun j => y j - x j) <= rs_value n r y.
Proof.
  intros (Hw & Hs & Hk) Hq.
  assert (Hdot : dot n (mtv (rs_p r) (rs_G r) q) (fun j => y j - x j) =
                 rsum (rs_p r) (fun i => q i * (mv n (rs_G r) y i - mv n (rs_G r) x i))).
  { rewrite dot_sym, <- adjoint_mat. unfold dot. apply rsum_ext. intros i Hi.
    rewrite Rmult_comm. f_equal. unfold mv. rewrite <- rsum_minus. apply rsum_ext. intros; ring. }
  unfold rs_value, rs_subgrad, model_reg in *. destruct (rs_kind r) as [|nax N|] eqn:Ek; simpl;
    unfold base_update_primal; simpl.
  - rewrite Hdot. rewrite <- !rsum_scal, <- rsum_plus. apply rsum_le. intros i Hi. apply Hq, Hi.
  - rewrite Hdot, Hk, rsum_grid. rewrite <- !rsum_scal, <- rsum_plus. apply rsum_le. intros i Hi. apply Hq, Hi.
  - assert (E : dot n (fun j => mtv (rs_p r) (rs_G r) q j * rs_w r) (fun j => y j - x j) =
      rs_w r * dot n (mtv (rs_p r) (rs_G r) q) (fun j => y j - x j)).
    { unfold dot. rewrite <- rsum_scal. apply rsum_ext. intros; ring. }
    rewrite E, Hdot, <- !rsum_scal, <- rsum_plus. apply rsum_le. intros i Hi. rewrite (Hq i Hi).
    set (a := mv n (rs_G r) x i). set (b := mv n (rs_G r) y i). pose proof (pow2_ge_0 (b - a)). nra.
Qed.

(** * C33 *)
Definition pd_objective (P : problem) (M : mat) (rs : list rspec) (x : vec) : R :=
  l2_fit (p_m P) (p_n P) M (train_mask P) (target P) x + lsum rs (fun r => rs_value (p_n P) r x).

(** one PDHG iteration changes nothing *)
Definition pdhg_fixed (P : problem) (l : option R) (rs : list rspec) (s : pdhg_state) : Prop :=
  let s' := pdhg_step P l s in
  veq (p_n P) (pd_x s') (pd_x s) /\ pd_xrelax s = pd_x s /\ veq (p_m P) (pd_p s') (pd_p s) /\
  Forall2 (fun r qq => veq (rs_p r) (fst qq) (snd qq)) rs (combine (pd_q s') (pd_q s)).

(** primal-dual optimality: dual of the data = masked residual, duals of the regularisers = subgradients,
    and the total gradient makes no feasible direction downhill *)
Definition pd_solution (P : problem) (M : mat) (rs : list rspec) (s : pdhg_state) : Prop :=
  obeys_limits P (pd_x s) /\
  (forall i, (i < p_m P)%nat -> pd_p s i = mask_at (train_mask P) i * (mv (p_n P) M (pd_x s) i - target P i)) /\
  Forall2 (fun r q => rs_subgrad (p_n P) r (pd_x s) q) rs (pd_q s) /\
  forall y j, obeys_limits P y -> (j < p_n P)%nat ->
    (mtv (p_m P) M (pd_p s) j + lsum (combine rs (pd_q s)) (fun rq => r_update_primal (model_reg (p_n P) (fst rq)) (snd rq) j))
    * (y j - pd_x s j) >= 0.

Lemma lsum_cons {A} (a : A) l f : lsum (a :: l) f = f a + lsum l f.
Proof. reflexivity. Qed.

Lemma fold_update_sum n rs (qs : list vec) u j : 
  fold_left (fun u qr => vadd u (r_update_primal (snd qr) (fst qr))) (combine qs (map (model_reg n) rs)) u j =
  u j + lsum (combine rs qs) (fun rq => r_update_primal (model_reg n (fst rq)) (snd rq) j).
Proof.
  revert u qs. induction rs as [|r rs IH]; intros u [|q qs]; simpl combine; simpl fold_left; try (unfold lsum; simpl; ring).
  rewrite IH, lsum_cons. unfold vadd. simpl. ring.
Qed.

Lemma update_primal_ext n r q q' j : veq (rs_p r) q q' ->
  r_update_primal (model_reg n r) q j = r_update_primal (model_reg n r) q' j.
Proof.
  intros H. unfold model_reg. simpl. unfold base_update_primal. simpl.
  assert (E : mtv (rs_p r) (rs_G r) q j = mtv (rs_p r) (rs_G r) q' j) by (apply rsum_ext; intros i Hi; rewrite (H i Hi); reflexivity).
  destruct (is_l1_kind (model_kind (rs_kind r))); simpl; rewrite E; reflexivity.
Qed.

Lemma lsum_update_ext n rs qs q' j :
  Forall2 (fun r qq => veq (rs_p r) (fst qq) (snd qq)) rs (combine q' qs) -> length q' = length rs -> length qs = length rs ->
  lsum (combine rs q') (fun rq => r_update_primal (model_reg n (fst rq)) (snd rq) j) =
  lsum (combine rs qs) (fun rq => r_update_primal (model_reg n (fst rq)) (snd rq) j).
Proof.
  revert qs q'. induction rs as [|r rs' IH]; intros [|q qs] [|q' qs'] Hq Hl' Hlen; cbn [combine length] in *; try reflexivity; try discriminate.
  inversion Hq; subst. rewrite !lsum_cons. f_equal.
  - cbn [fst snd] in *. apply update_primal_ext. assumption.
  - apply IH; auto.
Qed.

Section PD.
  Variables (P : problem) (M : mat) (l : option R) (rs : list rspec).
  Hypothesis Hop : p_op P = mat_op (p_m P) (p_n P) M.
  Hypothesis Hregs : p_regs P = map (model_reg (p_n P)) rs.
  Hypothesis Hok : Forall rs_ok rs.
  Hypothesis Hkind : dt_kind (p_dterm P) = K_l2.
  Hypothesis Hlim : limits_ok P.
  Hypothesis Hbx : binary_mask (p_xmask P).
  Hypothesis Hbm : binary_mask (train_mask P).
  Hypothesis Hsig : forall i, (i < p_m P)%nat -> 0 < pdhg_sigma P l i.
  Hypothesis Htau : forall j, (j < p_n P)%nat -> 0 < pdhg_tau P l j.

  Lemma pd_p_fixed p x i : (i < p_m P)%nat ->
    mul_mask (train_mask P) (proximal_dual (pdhg_dt P l) vones (update_dual (pdhg_dt P l) p (mv (p_n P) M x))) i = p i <->
    p i = mask_at (train_mask P) i * (mv (p_n P) M x i - target P i).
  Proof.
    intros Hi. specialize (Hsig i Hi).
    assert (E : mul_mask (train_mask P) (proximal_dual (pdhg_dt P l) vones (update_dual (pdhg_dt P l) p (mv (p_n P) M x))) i =
      mask_at (train_mask P) i * ((p i + pdhg_sigma P l i * (mv (p_n P) M x i - target P i)) / (1 + pdhg_sigma P l i))).
    { unfold mul_mask, mask_at, pdhg_dt, assigned, proximal_dual, update_dual, assign_data, add_background, sub_sigma_data, target, back_at. simpl.
      rewrite Hkind. simpl. destruct (train_mask P), (dt_background (p_dterm P)); field; lra. }
    rewrite E. destruct (Hbm i) as [-> | ->]; set (g := mv (p_n P) M x i - target P i); set (sg := pdhg_sigma P l i) in *.
    - split; intros H; lra.
    - split; intros H.
      + assert (H2 : p i * (1 + sg) = p i + sg * g) by (rewrite <- H at 1; field; lra).
        assert (H3 : sg * p i = sg * g) by lra. apply Rmult_eq_reg_l in H3; lra.
      + rewrite H. field. lra.
  Qed.

  Lemma duals_fixed x qs :
    Forall2 (fun r qq => veq (rs_p r) (fst qq) (snd qq)) rs
      (combine (map (fun qr => r_prox_dual (snd qr) (r_update_dual (snd qr) (fst qr) x)) (combine qs (map (model_reg (p_n P)) rs))) qs) <->
    Forall2 (fun r q => rs_subgrad (p_n P) r x q) rs (firstn (length rs) qs).
  Proof.
    clear Hregs. revert qs. induction rs as [|r rs' IH]; intros qs.
    - destruct qs; simpl; split; constructor.
    - inversion Hok as [|? ? Hr Hok']; subst. destruct qs as [|q qs]; simpl; [split; intros H; inversion H|].
      specialize (IH Hok' qs). pose proof (dual_fixed (p_n P) r x q Hr) as Hd. cbv zeta in Hd. split; intros H; inversion H; subst; constructor.
      + apply Hd. assumption.
      + apply IH. assumption.
      + apply Hd. assumption.
      + apply IH. assumption.
  Qed.

  Lemma primal_update_eq s j : pd_xrelax s = pd_x s -> length (pd_q s) = length rs ->
    veq (p_m P) (pd_p (pdhg_step P l s)) (pd_p s) ->
    Forall2 (fun r qq => veq (rs_p r) (fst qq) (snd qq)) rs (combine (pd_q (pdhg_step P l s)) (pd_q s)) ->
    pd_x (pdhg_step P l s) j = constrain (p_lower P) (p_upper P) (p_xmask P)
      (fun j => pd_x s j + - (mtv (p_m P) M (pd_p s) j + lsum (combine rs (pd_q s)) (fun rq => r_update_primal (model_reg (p_n P) (fst rq)) (snd rq) j)) * pdhg_tau P l j) j.
  Proof.
    intros Hxr Hlen Hp Hq. unfold pdhg_step, pdhg_update. cbn [pd_x]. apply (f_equal (fun v => constrain (p_lower P) (p_upper P) (p_xmask P) v j)). apply vec_ext. intros k. unfold vsub, vmul.
    rewrite Hregs. rewrite fold_update_sum.
    match goal with |- _ - (?a + ?b) * ?t = _ + - (?a' + ?b') * _ => assert (Ea : a = a'); [|assert (Eb : b = b'); [|rewrite Ea, Eb; ring]] end.
    - rewrite Hop at 1. simpl. unfold mtv. apply rsum_ext. intros i Hi. rewrite <- (Hp i Hi).
      unfold pdhg_step, pdhg_update. cbn [pd_p]. reflexivity.
    - unfold pdhg_step, pdhg_update in Hq. cbn [pd_q] in Hq. rewrite Hregs in Hq.
      set (q' := map _ (combine (pd_q s) _)) in *.
      assert (Hl' : length q' = length rs) by (unfold q'; rewrite map_length, combine_length, map_length; lia).
      apply lsum_update_ext; assumption.
  Qed.

  Theorem C33_fixed_iff_solution : forall s, length (pd_q s) = length rs -> pd_xrelax s = pd_x s -> obeys_limits P (pd_x s) ->
    (pdhg_fixed P l rs s <-> pd_solution P M rs s).
  Proof.
    intros s Hlen Hxr Hfeas. unfold pdhg_fixed, pd_solution. cbv zeta.
    assert (EA : opA (p_op P) (pd_xrelax s) = mv (p_n P) M (pd_x s)) by (rewrite Hop, Hxr; reflexivity).
    assert (Hp : veq (p_m P) (pd_p (pdhg_step P l s)) (pd_p s) <->
       forall i, (i < p_m P)%nat -> pd_p s i = mask_at (train_mask P) i * (mv (p_n P) M (pd_x s) i - target P i)).
    { unfold pdhg_step, pdhg_update. cbn [pd_p]. rewrite EA. split; intros H i Hi; apply pd_p_fixed; auto. }
    assert (Hq : Forall2 (fun r qq => veq (rs_p r) (fst qq) (snd qq)) rs (combine (pd_q (pdhg_step P l s)) (pd_q s)) <->
       Forall2 (fun r q => rs_subgrad (p_n P) r (pd_x s) q) rs (pd_q s)).
    { unfold pdhg_step, pdhg_update. cbn [pd_q]. rewrite Hregs, Hxr.
      rewrite (duals_fixed (pd_x s) (pd_q s)). rewrite <- Hlen, firstn_all. reflexivity. }
    set (g := fun j => - (mtv (p_m P) M (pd_p s) j + lsum (combine rs (pd_q s)) (fun rq => r_update_primal (model_reg (p_n P) (fst rq)) (snd rq) j))).
    pose proof (constrain_fixed (p_lower P) (p_upper P) (p_xmask P) (p_n P) (pd_x s) g (pdhg_tau P l) Hlim Hbx Hfeas Htau) as HF.
    split.
    - intros (H1 & _ & H3 & H4). split; [exact Hfeas|]. split; [apply Hp, H3|]. split; [apply Hq, H4|].
      intros y j Hy Hj.
      assert (Hx : forall j, (j < p_n P)%nat -> constrain (p_lower P) (p_upper P) (p_xmask P) (fun j => pd_x s j + g j * pdhg_tau P l j) j = pd_x s j).
      { intros k Hk. rewrite <- (H1 k Hk). rewrite (primal_update_eq s k Hxr Hlen H3 H4). reflexivity. }
      pose proof (proj1 HF Hx y j Hy Hj) as Hv. unfold g in Hv. lra.
    - intros (_ & H2 & H3 & H4). apply Hp in H2. apply Hq in H3. split; [|split; [exact Hxr|split; assumption]].
      intros j Hj. rewrite (primal_update_eq s j Hxr Hlen H2 H3). apply (proj2 HF); [|exact Hj].
      intros y k Hy Hk. specialize (H4 y k Hy Hk). unfold g. lra.
  Qed.

  Theorem C33_solution_minimises : forall s, pd_solution P M rs s -> minimises (obeys_limits P) (pd_objective P M rs) (pd_x s).
  Proof.
    intros s (Hfeas & Hp & Hq & Hvi). split; [exact Hfeas|]. intros y Hy. unfold pd_objective.
    set (x := pd_x s) in *.
    (* data part *)
    assert (HD : l2_fit (p_m P) (p_n P) M (train_mask P) (target P) x + dot (p_n P) (mtv (p_m P) M (pd_p s)) (fun j => y j - x j)
       <= l2_fit (p_m P) (p_n P) M (train_mask P) (target P) y).
    { unfold l2_fit. rewrite (wres_ext _ _ M _ _ y (fun j => x j + (y j - x j))) by (intros j _; ring).
      rewrite wres_expand.
      assert (E : dot (p_n P) (fun j => y j - x j) (mtv (p_m P) M (fun i => mask_at (train_mask P) i * (target P i - mv (p_n P) M x i))) =
                  - dot (p_n P) (mtv (p_m P) M (pd_p s)) (fun j => y j - x j)).
      { rewrite (dot_sym _ (mtv _ _ _)). unfold dot. rewrite <- rsum_opp. apply rsum_ext. intros j Hj.
        rewrite Ropp_mult_distr_r. f_equal. unfold mtv. rewrite <- rsum_opp. apply rsum_ext. intros i Hi. rewrite (Hp i Hi). ring. }
      rewrite E. assert (0 <= rsum (p_m P) (fun i => mask_at (train_mask P) i * mv (p_n P) M (fun j => y j - x j) i ^ 2)).
      { apply rsum_nonneg. intros i Hi. apply Rmult_le_pos; [apply binary_nonneg, Hbm|apply pow2_ge_0]. }
      lra. }
    (* regulariser part *)
    assert (HR : lsum rs (fun r => rs_value (p_n P) r x) +
       dot (p_n P) (fun j => lsum (combine rs (pd_q s)) (fun rq => r_update_primal (model_reg (p_n P) (fst rq)) (snd rq) j)) (fun j => y j - x j)
       <= lsum rs (fun r => rs_value (p_n P) r y)).
    { clear - Hq Hok. induction Hq as [|r q rs' qs Hr Hq IH].
      - unfold lsum. simpl. unfold dot. rewrite rsum_zero; [lra|]. intros; ring.
      - inversion Hok as [|? ? Ho Hok']; subst. specialize (IH Hok').
        pose proof (subgrad_global (p_n P) r x q y Ho Hr) as Hs.
        rewrite !lsum_cons.
        match goal with |- _ + dot _ ?f _ <= _ =>
          assert (E : dot (p_n P) f (fun j => y j - x j) = dot (p_n P) (r_update_primal (model_reg (p_n P) r) q) (fun j => y j - x j) +
            dot (p_n P) (fun j => lsum (combine rs' qs) (fun rq => r_update_primal (model_reg (p_n P) (fst rq)) (snd rq) j)) (fun j => y j - x j)) end.
        { unfold dot. rewrite <- rsum_plus. apply rsum_ext. intros j Hj. cbn [combine]. rewrite lsum_cons. cbn [fst snd]. ring. }
        rewrite E. lra. }
    assert (HV : 0 <= dot (p_n P) (mtv (p_m P) M (pd_p s)) (fun j => y j - x j) +
       dot (p_n P) (fun j => lsum (combine rs (pd_q s)) (fun rq => r_update_primal (model_reg (p_n P) (fst rq)) (snd rq) j)) (fun j => y j - x j)).
    { unfold dot. rewrite <- rsum_plus. apply rsum_nonneg. intros j Hj. specialize (Hvi y j Hy Hj). fold x in Hvi. lra. }
    lra.
  Qed.

  Theorem C33_fixed_points_optimal : forall s, length (pd_q s) = length rs ->
    pdhg_fixed P l rs s -> obeys_limits P (pd_x s) -> minimises (obeys_limits P) (pd_objective P M rs) (pd_x s).
  Proof.
    intros s Hlen Hfix Hf. apply C33_solution_minimises. apply C33_fixed_iff_solution; auto. apply Hfix.
  Qed.
End PD.

(** Non-vacuity of C33: min 1/2 (x - 2)^2 + 1/2 |x| has its minimum at 3/2; PDHG leaves it there. *)
Definition pd_demo_reg : rspec := mkRS RS_l1 1 (fun _ _ => 1) (/2) 1 vones.
Definition pd_demo : problem :=
  mkProblem 1 1 (mat_op 1 1 (fun _ _ => 1)) (fun _ => 2) None (Some vzeros) (Some (fun _ => 10)) None None None
    None 1 [model_reg 1 pd_demo_reg] (new_dterm K_l2 None) (new_dterm K_l2 None).
Definition pd_demo_state : pdhg_state := mkPD (fun _ => 3/2) (fun _ => 3/2) (fun _ => -/2) [fun _ => /2].
Example C33_example : Forall rs_ok [pd_demo_reg] /\ limits_ok pd_demo /\ binary_mask (p_xmask pd_demo) /\
  binary_mask (train_mask pd_demo) /\ pdhg_sigma pd_demo (Some 1) 0%nat = 1 /\ pdhg_tau pd_demo (Some 1) 0%nat = /2 /\
  pd_solution pd_demo (fun _ _ => 1) [pd_demo_reg] pd_demo_state /\ obeys_limits pd_demo (fun _ => 0).
Proof.
  assert (Hlim : limits_ok pd_demo).
  { intros l u j H1 H2 _. simpl in *. injection H1 as <-. injection H2 as <-. unfold vzeros. lra. }
  assert (Hob : forall c, 0 <= c <= 10 -> obeys_limits pd_demo (fun _ => c)).
  { intros c Hc j Hj. split; [exact I|]. intros _. simpl. unfold vzeros. lra. }
  split. { constructor; [|constructor]. unfold rs_ok, pd_demo_reg. simpl. lra. }
  split; [exact Hlim|]. split; [intros i; right; reflexivity|]. split; [intros i; right; reflexivity|].
  split. { simpl. unfold lips_sigma. simpl. lra. }
  split. { simpl. unfold lips_tau, mul_mask, vones. simpl. unfold vones. lra. }
  split; [|apply (Hob 0); lra].
  split; [apply (Hob (3/2)); lra|]. split.
  { intros i Hi. simpl in *. unfold mv, target, back_at, mask_at. simpl. lra. }
  split.
  { constructor; [|constructor]. unfold rs_subgrad, pd_demo_reg. simpl. intros i z Hi. unfold mv. simpl.
    rewrite (Rabs_right (0 + 1 * (3/2))) by lra. pose proof (Rle_abs z). lra. }
  intros y j Hy Hj. simpl in *. unfold mtv, base_update_primal, mul_mask, lsum. simpl. unfold mtv. simpl.
  apply Req_ge. lra.
Qed.

(** * C36: fixed points of FISTA *)
(** [x] is unchanged by one FISTA iteration that starts at x with no momentum (fi_x = fi_y = x, as in the first
    iteration and in every stationary state). *)
Definition fista_fixed (P : problem) (l : option R) (restart : option nat) (x : vec) : Prop :=
  veq (p_n P) (fi_x (fista_step P l restart 0 (mkFI x x 1))) x.

(** The objective: 1/2 sum_i s_i (b - bg - Mx)_i^2 over the training pixels, plus w |x|_1. *)
Definition lasso (m n : nat) (M : mat) (s : vec) (mask : option vec) (b : vec) (w : R) (x : vec) : R :=
  / 2 * wres m n M (fun i => s i * mask_at mask i) b x + w * rsum n (fun j => Rabs (x j)).

(** the one-dimensional fact: x = projection of the soft-thresholded point *)
Lemma soft_clip_vi w tau g x z y : 0 <= w -> 0 < tau -> z = soft_threshold1 (x + tau * g) (tau * w) ->
  (z - x) * (y - x) <= 0 -> w * Rabs x + g * (y - x) <= w * Rabs y.
Proof.
  intros Hw Ht Hz Hv. assert (Htw : 0 <= tau * w) by (apply Rmult_le_pos; lra).
  assert (G : tau * w * Rabs x + (tau * g) * (y - x) <= tau * w * Rabs y).
  { set (T := tau * w) in *. set (v := x + tau * g) in *. replace (tau * g) with (v - x) by (unfold v; ring).
    (* it is enough to have the inequality with v - z *)
    enough (H : (v - z) * (y - x) <= T * (Rabs y - Rabs x)) by nra.
    destruct (soft_cases v T Htw) as [[H1 H2]|[[H1 H2]|[H1 H2]]]; rewrite H2 in Hz; subst z.
    - rewrite Rminus_0_r. assert (Hxy : Rabs y - Rabs x = Rabs (y - x)).
      { unfold Rabs. repeat destruct Rcase_abs; nra. }
      rewrite Hxy. eapply Rle_trans; [apply Rle_abs|]. rewrite Rabs_mult. apply Rmult_le_compat_r; [apply Rabs_pos|exact H1].
    - replace (v - (v - T)) with T by ring. apply Rmult_le_compat_l; [exact Htw|].
      assert (0 < v - T) by lra. set (z := v - T) in *. unfold Rabs. repeat destruct Rcase_abs; nra.
    - replace (v - (v + T)) with (- T) by ring.
      assert (v + T < 0) by lra. set (z := v + T) in *.
      assert (- (y - x) <= Rabs y - Rabs x) by (unfold Rabs; repeat destruct Rcase_abs; nra).
      replace (- T * (y - x)) with (T * (- (y - x))) by ring. apply Rmult_le_compat_l; assumption. }
  apply Rmult_le_reg_l with tau; [exact Ht|]. nra.
Qed.

Section FI.
  Variables (P : problem) (M : mat) (l : option R) (restart : option nat) (w : R).
  Hypothesis Hop : p_op P = mat_op (p_m P) (p_n P) M.
  Hypothesis Hregs : p_regs P = [Regularizer_l1 (fun _ => w) None].
  Hypothesis Hkind : dt_kind (p_dterm P) = K_l2.
  Hypothesis Hw : 0 <= w.
  Hypothesis Hlim : limits_ok P.
  Hypothesis Hbx : binary_mask (p_xmask P).
  Hypothesis Hbm : binary_mask (train_mask P).
  Hypothesis Hsig : forall i, (i < p_m P)%nat -> 0 < fi_sigma P l i.
  Hypothesis Htau : forall j, (j < p_n P)%nat -> 0 < fi_tau P l j.

  Theorem C36_fista_fixed_points : forall x, obeys_limits P x -> fista_fixed P l restart x ->
    minimises (obeys_limits P) (lasso (p_m P) (p_n P) M (fi_sigma P l) (train_mask P) (target P) w) x.
  Proof.
    intros x Hx Hfix. split; [exact Hx|]. intros y Hy.
    set (W := fun i => fi_sigma P l i * mask_at (train_mask P) i).
    set (g := mtv (p_m P) M (fun i => W i * (target P i - mv (p_n P) M x i))).
    assert (Hj : forall j, (j < p_n P)%nat -> w * Rabs (x j) + g j * (y j - x j) <= w * Rabs (y j)).
    { intros j Hj. set (z := fun j => soft_threshold1 (x j + fi_tau P l j * g j) (fi_tau P l j * w)).
      assert (E : constrain (p_lower P) (p_upper P) (p_xmask P) z j = x j).
      { rewrite <- (Hfix j Hj). unfold fista_step, fista_update. cbn [fi_x fi_y]. rewrite Hregs.
        apply (f_equal (fun v => constrain (p_lower P) (p_upper P) (p_xmask P) v j)). apply vec_ext. intros k.
        unfold Regularizer_l1. cbn [r_prox_primal]. unfold l1_prox_primal, proximal_primal. simpl.
        unfold soft_threshold, z. f_equal. unfold vadd, vmul. f_equal. f_equal.
        rewrite Hop at 1. simpl. unfold g, mtv. apply rsum_ext. intros i Hi. f_equal.
        unfold fi_dt, assigned. rewrite l2_residual by exact Hkind. rewrite Hop at 1. simpl. unfold W, train_mask, target. ring. }
      pose proof (constrain_vi (p_lower P) (p_upper P) (p_xmask P) (p_n P) z y j Hlim Hbx Hy Hj) as Hv. rewrite E in Hv.
      eapply soft_clip_vi; [exact Hw|apply Htau, Hj|reflexivity|exact Hv]. }
    unfold lasso. fold W. rewrite (wres_ext _ _ M W _ y (fun j => x j + (y j - x j))) by (intros j _; ring).
    rewrite wres_expand. fold g.
    assert (H1 : 0 <= rsum (p_m P) (fun i => W i * mv (p_n P) M (fun j => y j - x j) i ^ 2)).
    { apply rsum_nonneg. intros i Hi. unfold W. specialize (Hsig i Hi). pose proof (binary_nonneg _ i Hbm).
      apply Rmult_le_pos; [apply Rmult_le_pos; lra|apply pow2_ge_0]. }
    assert (H2 : w * rsum (p_n P) (fun j => Rabs (x j)) + dot (p_n P) (fun j => y j - x j) g <= w * rsum (p_n P) (fun j => Rabs (y j))).
    { rewrite <- !rsum_scal. unfold dot. rewrite <- rsum_plus. apply rsum_le. intros j Hj'. specialize (Hj j Hj'). lra. }
    lra.
  Qed.
End FI.

(** The documented objective has unit data weights; in Lipschitz mode the code's weights are 1/L, so the effective
    l1 weight is L * w.  Witness: M = [[2]] (power method value 2), b = [4], w = 1: x = 3/2 is unchanged by FISTA, but
    x = 7/4 has a smaller documented objective. *)
Definition fi_demo : problem :=
  mkProblem 1 1 (mat_op 1 1 (fun _ _ => 2)) (fun _ => 4) None None None None None None
    None 1 [Regularizer_l1 (fun _ => 1) None] (new_dterm K_l2 None) (new_dterm K_l2 None).

Theorem C36_documented_objective_refuted :
  (forall iterations, (1 <= iterations)%nat -> power_method 1 1 (p_op fi_demo) vones iterations = 2) /\
  fista_fixed fi_demo (Some 2) None (fun _ => 3/2) /\
  ~ minimises (obeys_limits fi_demo) (lasso 1 1 (fun _ _ => 2) vones None (target fi_demo) 1) (fun _ => 3/2).
Proof.
  split; [|split].
  - assert (V1 : forall v : vec, 0 <= v 0%nat -> vnorm 1 v = v 0%nat).
    { intros v Hv. unfold vnorm, norm2, dot. simpl. rewrite Rplus_0_l, Rmult_1_r. apply sqrt_square. exact Hv. }
    assert (G : forall k x L, (1 <= k)%nat -> 0 < x 0%nat -> power_loop 1 (p_op fi_demo) k x L = 2).
    { induction k as [|k IH]; intros x L Hk Hx; [lia|].
      cbn [power_loop]. set (x' := opAt (p_op fi_demo) _).
      assert (E : x' 0%nat = 4).
      { unfold x'. simpl. unfold mtv, mv. simpl. rewrite V1 by lra. field. lra. }
      destruct k as [|k].
      - simpl. rewrite V1 by lra. rewrite E. replace 4 with (2 * 2) by ring. apply sqrt_square. lra.
      - apply IH; [lia|lra]. }
    intros it Hit. unfold power_method. apply G; [exact Hit|]. simpl. unfold mtv. simpl.
    rewrite V1 by (unfold vones; lra). unfold vones. lra.
  - intros j Hj. assert (j = 0%nat) by (simpl in Hj; lia). subst j.
    unfold fista_step, fista_update. simpl. unfold constrain, mul_mask, np_clip. simpl.
    unfold l1_prox_primal, proximal_primal. simpl. unfold soft_threshold. simpl.
    match goal with |- soft_threshold1 ?a ?b = _ => assert (Ea : a = 2); [|assert (Eb : b = /2)] end.
    { unfold vadd, vmul, mtv. simpl. unfold lips_tau, lips_sigma. simpl. unfold fi_dt, assigned. rewrite l2_residual by reflexivity.
      unfold mask_at, back_at, mv. simpl. lra. }
    { unfold vmul. simpl. unfold lips_tau. simpl. lra. }
    rewrite Ea, Eb. unfold soft_threshold1, np_sign, np_fmax. destruct (Rlt_dec 0 2); [|lra].
    rewrite (Rabs_right 2) by lra. unfold Rmax. destruct (Rle_dec _ _); lra.
  - intros [_ H]. specialize (H (fun _ => 7/4)).
    assert (Hf : obeys_limits fi_demo (fun _ => 7/4)) by (intros j Hj; simpl; tauto).
    specialize (H Hf). unfold lasso, wres, mv, target, vones, mask_at, back_at in H. simpl in H.
    rewrite !Rabs_right in H by lra. lra.
Qed.
