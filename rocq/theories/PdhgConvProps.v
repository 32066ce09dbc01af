(** C150: PDHG converges: the objective of the returned volume approaches the minimum, at rate 1/sqrt(iterations). *)
From Verif Require Import Sums DataTermsModel DataTermsProofs SolversModel SolversSpec SolversGeneric SolversProps
  RegularizersModel SolversConv SolversConvProps SolversOptProps PdhgConv.

(** * One regulariser: dual in the scale in which it enters the volume update *)
Definition effq (r : rspec) (q : vec) : vec := match rs_kind r with RS_l2 => fun i => rs_w r * q i | _ => q end.
Definition effs (r : rspec) : R := match rs_kind r with RS_l2 => rs_w r * rs_s r | _ => rs_s r end.
Definition dual_ok (r : rspec) (z : vec) : Prop :=
  match rs_kind r with
  | RS_l1 => forall i, (i < rs_p r)%nat -> Rabs (z i) <= rs_w r
  | RS_l12 nax N => forall i, (i < N)%nat -> grp_norm nax (fun a => z (a * N + i)%nat) <= rs_w r
  | RS_l2 => True
  end.
Definition conj_r (r : rspec) (z : vec) : R := match rs_kind r with RS_l2 => rsum (rs_p r) (fun i => z i ^ 2 / (2 * rs_w r)) | _ => 0 end.

Lemma effs_pos r : rs_ok r -> 0 < effs r.
Proof. intros (Hw & Hs & _). unfold effs. destruct (rs_kind r); try assumption. apply Rmult_lt_0_compat; assumption. Qed.
Lemma upd_primal_eff n r q j : r_update_primal (model_reg n r) q j = mtv (rs_p r) (rs_G r) (effq r q) j.
Proof.
  unfold model_reg, effq. simpl. unfold base_update_primal. destruct (rs_kind r); simpl; try reflexivity.
  unfold mtv. rewrite <- rsum_scal_r. apply rsum_ext. intros; ring.
Qed.
Lemma grp_comp nax e a : (a < nax)%nat -> Rabs (e a) <= grp_norm nax e.
Proof.
  intros H. apply Rsqr_incr_0_var; [|apply grp_norm_nonneg]. rewrite <- Rsqr_abs, !Rsqr_pow2, grp_norm_sq.
  apply (rsum_term_le nax (fun a => e a ^ 2)); [intros; apply pow2_ge_0|exact H].
Qed.
(** projection onto the ball of radius w *)
Lemma ball_vi nax w d y : 0 < w -> grp_norm nax y <= w ->
  let q := fun a => d a / np_fmax (grp_norm nax d) w * w in
  grp_norm nax q <= w /\ rsum nax (fun a => (y a - q a) * (d a - q a)) <= 0.
Proof.
  intros Hw Hy q. unfold np_fmax in q. destruct (Rle_lt_dec (grp_norm nax d) w) as [H|H].
  - assert (E : forall a, q a = d a) by (intros a; unfold q; rewrite Rmax_right by exact H; field; lra).
    split.
    + rewrite (grp_norm_ext nax q d) by (intros; apply E). exact H.
    + rewrite rsum_zero; [lra|]. intros a _. rewrite E. ring.
  - set (D := grp_norm nax d) in *. assert (E : forall a, q a = w / D * d a) by (intros a; unfold q; rewrite Rmax_left by lra; field; lra).
    assert (Hr : 0 < w / D) by (apply Rdiv_lt_0_compat; lra).
    assert (Hr1 : w / D < 1) by (apply Rmult_lt_reg_r with D; [lra|]; unfold Rdiv; rewrite Rmult_assoc, Rinv_l by lra; lra).
    split.
    + rewrite (grp_norm_ext nax q (fun a => w / D * d a)) by (intros; apply E). rewrite grp_norm_scale by lra. fold D. right. field. lra.
    + rewrite (rsum_ext nax _ (fun a => (1 - w / D) * (y a * d a) - (1 - w / D) * (w / D) * d a ^ 2)) by (intros a _; rewrite E; ring).
      rewrite rsum_minus, !rsum_scal, <- grp_norm_sq. fold D.
      assert (C : rsum nax (fun a => y a * d a) <= w * D).
      { eapply Rle_trans; [apply grp_cs|]. apply Rmult_le_compat_r; [apply grp_norm_nonneg|exact Hy]. }
      replace ((1 - w / D) * (w / D) * D ^ 2) with ((1 - w / D) * (w * D)) by (field; lra).
      assert ((1 - w / D) * rsum nax (fun a => y a * d a) <= (1 - w / D) * (w * D)) by (apply Rmult_le_compat_l; lra). lra.
Qed.
Definition new_dual (n : nat) (r : rspec) (q x : vec) : vec := r_prox_dual (model_reg n r) (r_update_dual (model_reg n r) q x).
Lemma dual_entry_l1 n r q x i : rs_kind r = RS_l1 ->
  new_dual n r q x i = let d := q i + rs_s r * mv n (rs_G r) x i in d / np_fmax (Rabs d) (rs_w r) * rs_w r.
Proof. intros E. unfold new_dual, model_reg. rewrite E. reflexivity. Qed.
Lemma dual_entry_l2 n r q x i : rs_kind r = RS_l2 ->
  new_dual n r q x i = (q i + rs_s r * mv n (rs_G r) x i) / (1 + rs_s r).
Proof.
  intros E. unfold new_dual, model_reg. rewrite E. simpl. unfold base_prox_dual. simpl. unfold proximal_dual. simpl.
  unfold base_update_dual, sub_sigma_data. simpl. unfold Rdiv. ring.
Qed.
Lemma dual_entry_l12 n r q x nax N a i : rs_kind r = RS_l12 nax N -> (i < N)%nat ->
  let d := fun a => q (a * N + i)%nat + rs_s r * mv n (rs_G r) x (a * N + i)%nat in
  new_dual n r q x (a * N + i)%nat = d a / np_fmax (grp_norm nax d) (rs_w r) * rs_w r.
Proof.
  intros E Hi d. unfold new_dual, model_reg. rewrite E. simpl. unfold base_prox_dual. simpl. unfold proximal_dual. simpl.
  unfold base_update_dual, sub_sigma_data. simpl. fold (d a). f_equal. f_equal. f_equal.
  unfold group_norm, grp_norm. f_equal. rewrite lsum_map, lsum_seq. apply rsum_ext. intros b Hb.
  assert (E' : ((a * N + i) mod N = i)%nat) by (rewrite Nat.add_comm, Nat.mod_add, Nat.mod_small; lia). rewrite E'. reflexivity.
Qed.
Lemma grid_idx nax N k : (k < nax * N)%nat -> exists a i, (a < nax)%nat /\ (i < N)%nat /\ k = (a * N + i)%nat.
Proof.
  intros H. assert (HN : N <> 0%nat) by (intros ->; lia). exists (k / N)%nat, (k mod N)%nat.
  split; [apply Nat.div_lt_upper_bound; lia|]. split; [apply Nat.mod_upper_bound; exact HN|]. rewrite Nat.mul_comm. apply Nat.div_mod. exact HN.
Qed.
Lemma grp_norm_1' w (y : R) : Rabs y <= w -> grp_norm 1 (fun _ => y) <= w.
Proof. rewrite grp_norm_1. auto. Qed.

(** the dual step satisfies the variational inequality of the conjugate *)
Lemma reg_vi n r q x : rs_ok r ->
  let u := mv n (rs_G r) x in let z := effq r q in let z' := effq r (new_dual n r q x) in
  dual_ok r z' /\ forall y, dual_ok r y ->
    conj_r r z' + rsum (rs_p r) (fun i => u i * (y i - z' i) + (z i - z' i) * (y i - z' i) / effs r) <= conj_r r y.
Proof.
  intros Hok. pose proof (effs_pos r Hok) as He. destruct Hok as (Hw & Hs & Hk). cbv zeta. unfold dual_ok, conj_r, effq, effs in *.
  destruct (rs_kind r) as [|nax N|] eqn:Ek.
  - assert (V : forall i y, Rabs y <= rs_w r -> Rabs (new_dual n r q x i) <= rs_w r /\
       (y - new_dual n r q x i) * (q i + rs_s r * mv n (rs_G r) x i - new_dual n r q x i) <= 0).
    { intros i y Hy. rewrite (dual_entry_l1 n r q x i Ek). cbv zeta. set (d := q i + _).
      pose proof (ball_vi 1 (rs_w r) (fun _ => d) (fun _ => y) Hw (grp_norm_1' _ _ Hy)) as [H1 H2]. cbv zeta in H1, H2.
      rewrite !grp_norm_1 in H1, H2. rewrite ?grp_norm_1 in H1. cbn [rsum] in H2. split; [exact H1|lra]. }
    split.
    { intros i Hi. apply (V i 0). rewrite Rabs_R0. lra. }
    intros y Hy. rewrite Rplus_0_l. rewrite <- (rsum_0 (rs_p r)). apply rsum_le. intros i Hi. destruct (V i (y i) (Hy i Hi)) as [_ H].
    apply Rmult_le_reg_l with (rs_s r); [exact Hs|]. 
    replace (rs_s r * (mv n (rs_G r) x i * (y i - new_dual n r q x i) + (q i - new_dual n r q x i) * (y i - new_dual n r q x i) / rs_s r))
      with ((y i - new_dual n r q x i) * (q i + rs_s r * mv n (rs_G r) x i - new_dual n r q x i)) by (field; lra). lra.
  - assert (V : forall i y, (i < N)%nat -> grp_norm nax y <= rs_w r -> grp_norm nax (fun a => new_dual n r q x (a * N + i)%nat) <= rs_w r /\
       rsum nax (fun a => (y a - new_dual n r q x (a * N + i)%nat) * (q (a * N + i)%nat + rs_s r * mv n (rs_G r) x (a * N + i)%nat - new_dual n r q x (a * N + i)%nat)) <= 0).
    { intros i y Hi Hy. set (d := fun a => q (a * N + i)%nat + rs_s r * mv n (rs_G r) x (a * N + i)%nat).
      pose proof (ball_vi nax (rs_w r) d y Hw Hy) as [H1 H2]. cbv zeta in H1, H2.
      assert (E : forall a, new_dual n r q x (a * N + i)%nat = d a / np_fmax (grp_norm nax d) (rs_w r) * rs_w r) by (intros a; apply (dual_entry_l12 n r q x nax N a i Ek Hi)).
      split.
      - rewrite (grp_norm_ext nax _ (fun a => d a / np_fmax (grp_norm nax d) (rs_w r) * rs_w r)) by (intros; apply E). exact H1.
      - rewrite (rsum_ext nax _ (fun a => (y a - d a / np_fmax (grp_norm nax d) (rs_w r) * rs_w r) * (d a - d a / np_fmax (grp_norm nax d) (rs_w r) * rs_w r))); [exact H2|].
        intros a _. rewrite (E a). reflexivity. }
    split.
    { intros i Hi. apply (V i (fun _ => 0 * 0) Hi). rewrite grp_norm_scale by lra. lra. }
    intros y Hy. rewrite Rplus_0_l, Hk, rsum_grid. rewrite <- (rsum_0 N). apply rsum_le. intros i Hi.
    destruct (V i (fun a => y (a * N + i)%nat) Hi (Hy i Hi)) as [_ H].
    apply Rmult_le_reg_l with (rs_s r); [exact Hs|]. rewrite <- rsum_scal, Rmult_0_r.
    eapply Rle_trans; [|exact H]. right. apply rsum_ext. intros a _. field. lra.
  - split; [exact I|]. intros y _. rewrite <- rsum_plus. apply rsum_le. intros i Hi. rewrite (dual_entry_l2 n r q x i Ek).
    set (u := mv n (rs_G r) x i). set (q' := (q i + rs_s r * u) / (1 + rs_s r)).
    assert (Eq : q i = q' * (1 + rs_s r) - rs_s r * u) by (unfold q'; field; lra). rewrite Eq.
    assert (0 <= (y i - rs_w r * q') ^ 2 / (2 * rs_w r)) by (apply Rdiv_le_0_compat; [apply pow2_ge_0|lra]).
    replace ((rs_w r * q') ^ 2 / (2 * rs_w r) + (u * (y i - rs_w r * q') + (rs_w r * (q' * (1 + rs_s r) - rs_s r * u) - rs_w r * q') * (y i - rs_w r * q') / (rs_w r * rs_s r)))
      with (y i ^ 2 / (2 * rs_w r) - (y i - rs_w r * q') ^ 2 / (2 * rs_w r)) by (field; lra). lra.
Qed.

(** Fenchel: the term is the largest value of <z, Gx> - conjugate; attained, with the maximiser controlled *)
Lemma reg_sup n r x z : rs_ok r -> dual_ok r z ->
  rsum (rs_p r) (fun i => mv n (rs_G r) x i * z i) - conj_r r z <= rs_value n r x.
Proof.
  intros (Hw & Hs & Hk). unfold dual_ok, conj_r, rs_value. set (u := mv n (rs_G r) x). destruct (rs_kind r) as [|nax N|]; intros Hz.
  - rewrite Rminus_0_r, <- rsum_scal. apply rsum_le. intros i Hi. eapply Rle_trans; [apply Rle_abs|]. rewrite Rabs_mult, Rmult_comm.
    apply Rmult_le_compat_r; [apply Rabs_pos|auto].
  - rewrite Rminus_0_r, <- rsum_scal, Hk, rsum_grid. apply rsum_le. intros i Hi.
    eapply Rle_trans; [apply (grp_cs nax (fun a => u (a * N + i)%nat) (fun a => z (a * N + i)%nat))|]. rewrite Rmult_comm.
    apply Rmult_le_compat_r; [apply grp_norm_nonneg|auto].
  - rewrite <- rsum_minus, <- rsum_scal. apply rsum_le. intros i _.
    assert (0 <= (z i - rs_w r * u i) ^ 2 / (2 * rs_w r)) by (apply Rdiv_le_0_compat; [apply pow2_ge_0|lra]).
    replace (rs_w r / 2 * u i ^ 2) with (u i * z i - z i ^ 2 / (2 * rs_w r) + (z i - rs_w r * u i) ^ 2 / (2 * rs_w r)) by (field; lra). lra.
Qed.
Lemma reg_att n r x : rs_ok r -> exists Y, dual_ok r Y /\
  rsum (rs_p r) (fun i => mv n (rs_G r) x i * Y i) - conj_r r Y = rs_value n r x /\
  forall z, dual_ok r z -> rsum (rs_p r) (fun i => (Y i - z i) ^ 2 / effs r) <=
    INR (rs_p r) * ((2 * rs_w r) ^ 2 / effs r) + 2 / rs_s r * (rs_value n r x - (rsum (rs_p r) (fun i => mv n (rs_G r) x i * z i) - conj_r r z)).
Proof.
  intros Hok. pose proof (effs_pos r Hok) as He. pose proof Hok as (Hw & Hs & Hk).
  assert (Hgap : forall z, dual_ok r z -> 0 <= 2 / rs_s r * (rs_value n r x - (rsum (rs_p r) (fun i => mv n (rs_G r) x i * z i) - conj_r r z))).
  { intros z Hz. apply Rmult_le_pos; [left; apply Rdiv_lt_0_compat; lra|]. pose proof (reg_sup n r x z Hok Hz). lra. }
  assert (Hb : forall Y z, (forall i, (i < rs_p r)%nat -> Rabs (Y i) <= rs_w r) -> (forall i, (i < rs_p r)%nat -> Rabs (z i) <= rs_w r) ->
     rsum (rs_p r) (fun i => (Y i - z i) ^ 2 / effs r) <= INR (rs_p r) * ((2 * rs_w r) ^ 2 / effs r)).
  { intros Y z HY Hz. rewrite <- rsum_const. apply rsum_le. intros i Hi. apply Rmult_le_compat_r; [left; apply Rinv_0_lt_compat; exact He|].
    specialize (HY i Hi). specialize (Hz i Hi). 
    assert (- rs_w r <= Y i <= rs_w r) by (unfold Rabs in HY; destruct (Rcase_abs (Y i)); lra).
    assert (- rs_w r <= z i <= rs_w r) by (unfold Rabs in Hz; destruct (Rcase_abs (z i)); lra). nra. }
  destruct (rs_kind r) as [|nax N|] eqn:Ek.
  - set (u := mv n (rs_G r) x). set (Y := fun i => if Rle_dec 0 (u i) then rs_w r else - rs_w r). exists Y.
    assert (HY : forall i, Rabs (Y i) <= rs_w r).
    { intros i. unfold Y. destruct (Rle_dec 0 (u i)); [rewrite Rabs_right; lra|rewrite Rabs_left; lra]. }
    split; [unfold dual_ok; rewrite Ek; auto|]. split.
    { unfold conj_r, rs_value. rewrite Ek. rewrite Rminus_0_r, <- rsum_scal. apply rsum_ext. intros i _. fold (u i). unfold Y.
      destruct (Rle_dec 0 (u i)); [rewrite Rabs_right by lra; ring|rewrite Rabs_left by lra; ring]. }
    intros z Hz. pose proof (Hgap z Hz) as H0. unfold dual_ok in Hz. rewrite Ek in Hz. specialize (Hb Y z (fun i _ => HY i) Hz). fold u in H0. lra.
  - set (u := mv n (rs_G r) x). set (U := fun i => grp_norm nax (fun a => u (a * N + i)%nat)).
    set (Y := fun k => if Req_EM_T (U (k mod N)%nat) 0 then 0 else rs_w r / U (k mod N)%nat * u k). exists Y.
    assert (Hmod : forall a i, (i < N)%nat -> ((a * N + i) mod N = i)%nat) by (intros a i Hi; rewrite Nat.add_comm, Nat.mod_add, Nat.mod_small; lia).
    assert (HYg : forall i, (i < N)%nat -> grp_norm nax (fun a => Y (a * N + i)%nat) <= rs_w r /\
       rsum nax (fun a => u (a * N + i)%nat * Y (a * N + i)%nat) = rs_w r * U i).
    { intros i Hi. destruct (Req_EM_T (U i) 0) as [E0|E0].
      - assert (EY : forall a, Y (a * N + i)%nat = 0) by (intros a; unfold Y; rewrite Hmod by exact Hi; destruct (Req_EM_T (U i) 0); [reflexivity|contradiction]).
        split.
        + rewrite (grp_norm_ext nax _ (fun a => 0 * 0)) by (intros; rewrite EY; ring). rewrite grp_norm_scale by lra. lra.
        + rewrite rsum_zero by (intros; rewrite EY; ring). rewrite E0. ring.
      - assert (EY : forall a, Y (a * N + i)%nat = rs_w r / U i * u (a * N + i)%nat) by (intros a; unfold Y; rewrite Hmod by exact Hi; destruct (Req_EM_T (U i) 0); [contradiction|reflexivity]).
        assert (Up : 0 < U i) by (pose proof (grp_norm_nonneg nax (fun a => u (a * N + i)%nat)); unfold U in *; lra).
        assert (0 < rs_w r / U i) by (apply Rdiv_lt_0_compat; lra).
        split.
        + rewrite (grp_norm_ext nax _ (fun a => rs_w r / U i * u (a * N + i)%nat)) by (intros; apply EY). rewrite grp_norm_scale by lra. fold (U i). right. field. lra.
        + rewrite (rsum_ext nax _ (fun a => rs_w r / U i * u (a * N + i)%nat ^ 2)) by (intros; rewrite EY; ring). rewrite rsum_scal.
          rewrite <- (grp_norm_sq nax (fun a => u (a * N + i)%nat)). fold (U i). field. lra. }
    assert (Habs : forall z, (forall i, (i < N)%nat -> grp_norm nax (fun a => z (a * N + i)%nat) <= rs_w r) -> forall k, (k < rs_p r)%nat -> Rabs (z k) <= rs_w r).
    { intros z Hz k Hk'. rewrite Hk in Hk'. destruct (grid_idx nax N k Hk') as (a & i & Ha & Hi & ->).
      eapply Rle_trans; [apply (grp_comp nax (fun a => z (a * N + i)%nat) a Ha)|auto]. }
    split; [unfold dual_ok; rewrite Ek; intros i Hi; apply HYg, Hi|]. split.
    { unfold conj_r, rs_value. rewrite Ek. rewrite Rminus_0_r, <- rsum_scal, Hk, rsum_grid. apply rsum_ext. intros i Hi. apply HYg, Hi. }
    intros z Hz. pose proof (Hgap z Hz) as H0. unfold dual_ok in Hz. rewrite Ek in Hz.
    specialize (Hb Y z (Habs Y (fun i Hi => proj1 (HYg i Hi))) (Habs z Hz)). fold u in H0. lra.
  - set (u := mv n (rs_G r) x). exists (fun i => rs_w r * u i). split; [unfold dual_ok; rewrite Ek; exact I|]. unfold conj_r, rs_value. rewrite Ek. cbv zeta. fold u. split.
    { rewrite <- rsum_minus, <- rsum_scal. apply rsum_ext. intros i _. field. lra. }
    intros z _. assert (P0 : 0 <= INR (rs_p r) * ((2 * rs_w r) ^ 2 / effs r)).
    { apply Rmult_le_pos; [apply pos_INR|]. apply Rdiv_le_0_compat; [apply pow2_ge_0|exact He]. }
    assert (E : rsum (rs_p r) (fun i => (rs_w r * u i - z i) ^ 2 / effs r) =
      2 / rs_s r * (rs_w r / 2 * rsum (rs_p r) (fun i => u i ^ 2) - (rsum (rs_p r) (fun i => u i * z i) - rsum (rs_p r) (fun i => z i ^ 2 / (2 * rs_w r))))); [|lra].
    rewrite <- rsum_minus, <- rsum_scal, <- rsum_minus, <- rsum_scal. apply rsum_ext. intros i _. unfold effs. rewrite Ek. field. lra.
Qed.
(** a subgradient is an admissible dual, and attains *)
Lemma reg_subgrad n r x q : rs_ok r -> rs_subgrad n r x q ->
  dual_ok r (effq r q) /\ rsum (rs_p r) (fun i => mv n (rs_G r) x i * effq r q i) - conj_r r (effq r q) = rs_value n r x.
Proof.
  intros Hok Hq. assert (D : dual_ok r (effq r q)).
  { pose proof (proj2 (dual_fixed n r x q Hok) Hq) as HF. cbv zeta in HF. fold (new_dual n r q x) in HF.
    pose proof (proj1 (reg_vi n r q x Hok)) as HD. cbv zeta in HD. pose proof Hok as (_ & _ & Hk).
    unfold dual_ok, effq in *. destruct (rs_kind r) as [|nax N|]; [| |exact I].
    - intros i Hi. rewrite <- (HF i Hi). auto.
    - intros i Hi. rewrite (grp_norm_ext nax _ (fun a => new_dual n r q x (a * N + i)%nat)); [auto|].
      intros a Ha. symmetry. apply HF. rewrite Hk. nia. }
  split; [exact D|]. pose proof (reg_sup n r x _ Hok D) as H1. apply Rle_antisym; [exact H1|]. clear H1 D.
  destruct Hok as (Hw & Hs & Hk). unfold rs_subgrad, rs_value, conj_r, effq in *. set (u := mv n (rs_G r) x) in *.
  destruct (rs_kind r) as [|nax N|] eqn:Ek.
  - rewrite Rminus_0_r, <- rsum_scal. apply rsum_le. intros i Hi. specialize (Hq i 0 Hi). cbv zeta in Hq. rewrite Rabs_R0 in Hq. fold (u i) in Hq. lra.
  - rewrite Rminus_0_r, <- rsum_scal, Hk, rsum_grid. apply rsum_le. intros i Hi. specialize (Hq i (fun _ => 0 * 0) Hi). cbv zeta in Hq.
    rewrite grp_norm_scale in Hq by lra. fold u in Hq.
    rewrite (rsum_ext nax (fun a => q (a * N + i)%nat * (0 * 0 - u (a * N + i)%nat)) (fun a => - (u (a * N + i)%nat * q (a * N + i)%nat))) in Hq by (intros; ring).
    rewrite rsum_opp in Hq. lra.
  - rewrite <- rsum_minus, <- rsum_scal. apply rsum_le. intros i Hi. rewrite (Hq i Hi). fold (u i). right. field. lra.
Qed.

(** * All regularisers, stacked *)
Definition shift (d : nat) (z : vec) : vec := fun i => z (d + i)%nat.
Definition put (d : nat) (a b : vec) : vec := fun i => if Nat.ltb i d then a i else b (i - d)%nat.
Lemma put_lo d a b i : (i < d)%nat -> put d a b i = a i.
Proof. intros H. unfold put. apply Nat.ltb_lt in H. rewrite H. reflexivity. Qed.
Lemma put_hi d a b i : put d a b (d + i)%nat = b i.
Proof. unfold put. replace (Nat.ltb (d + i) d) with false by (symmetry; apply Nat.ltb_ge; lia). f_equal. lia. Qed.
Lemma shift_put d a b : shift d (put d a b) = b.
Proof. apply vec_ext. intros i. apply put_hi. Qed.
Definition putm (d : nat) (A B : mat) : mat := fun i j => if Nat.ltb i d then A i j else B (i - d)%nat j.
Lemma mv_put_lo n d A B x i : (i < d)%nat -> mv n (putm d A B) x i = mv n A x i.
Proof. intros H. unfold mv, putm. apply Nat.ltb_lt in H. rewrite H. reflexivity. Qed.
Lemma mv_put_hi n d A B x i : mv n (putm d A B) x (d + i)%nat = mv n B x i.
Proof.
  unfold mv, putm. replace (Nat.ltb (d + i) d) with false by (symmetry; apply Nat.ltb_ge; lia). replace (d + i - d)%nat with i by lia. reflexivity.
Qed.
Lemma mtv_put d t A B a b j : mtv (d + t) (putm d A B) (put d a b) j = mtv d A a j + mtv t B b j.
Proof.
  unfold mtv. rewrite rsum_app. f_equal; apply rsum_ext; intros i Hi.
  - unfold putm. rewrite put_lo by exact Hi. apply Nat.ltb_lt in Hi. rewrite Hi. reflexivity.
  - rewrite put_hi. unfold putm. replace (Nat.ltb (d + i) d) with false by (symmetry; apply Nat.ltb_ge; lia). replace (d + i - d)%nat with i by lia. reflexivity.
Qed.

Fixpoint tot (rs : list rspec) : nat := match rs with r :: rs' => (rs_p r + tot rs')%nat | [] => 0%nat end.
Fixpoint Kreg (rs : list rspec) : mat := match rs with r :: rs' => putm (rs_p r) (rs_G r) (Kreg rs') | [] => fun _ _ => 0 end.
Fixpoint sreg (rs : list rspec) : vec := match rs with r :: rs' => put (rs_p r) (fun _ => effs r) (sreg rs') | [] => vones end.
Fixpoint domreg (rs : list rspec) (z : vec) : Prop := match rs with r :: rs' => dual_ok r z /\ domreg rs' (shift (rs_p r) z) | [] => True end.
Fixpoint fsreg (rs : list rspec) (z : vec) : R := match rs with r :: rs' => conj_r r z + fsreg rs' (shift (rs_p r) z) | [] => 0 end.
Fixpoint stackq (rs : list rspec) (qs : list vec) : vec :=
  match rs, qs with r :: rs', q :: qs' => put (rs_p r) (effq r q) (stackq rs' qs') | _, _ => vzeros end.
Fixpoint breg (rs : list rspec) : R := match rs with r :: rs' => INR (rs_p r) * ((2 * rs_w r) ^ 2 / effs r) + breg rs' | [] => 0 end.
Fixpoint creg (rs : list rspec) : R := match rs with r :: rs' => 2 / rs_s r + creg rs' | [] => 0 end.
Definition new_duals (n : nat) (rs : list rspec) (qs : list vec) (x : vec) : list vec :=
  map (fun qr => r_prox_dual (snd qr) (r_update_dual (snd qr) (fst qr) x)) (combine qs (map (model_reg n) rs)).

Lemma dual_ok_ext r z z' : rs_ok r -> veq (rs_p r) z z' -> dual_ok r z -> dual_ok r z'.
Proof.
  intros (_ & _ & Hk) H. unfold dual_ok. destruct (rs_kind r) as [|nax N|]; [| |auto].
  - intros D i Hi. rewrite <- (H i Hi). auto.
  - intros D i Hi. rewrite (grp_norm_ext nax _ (fun a => z (a * N + i)%nat)); [auto|]. intros a Ha. symmetry. apply H. rewrite Hk. nia.
Qed.
Lemma conj_r_ext r z z' : veq (rs_p r) z z' -> conj_r r z = conj_r r z'.
Proof. intros H. unfold conj_r. destruct (rs_kind r); try reflexivity. apply rsum_ext. intros i Hi. rewrite (H i Hi). reflexivity. Qed.
Lemma put_veq d a b : veq d (put d a b) a. Proof. intros i Hi. apply put_lo, Hi. Qed.
Lemma put_veq' d a b : veq d a (put d a b). Proof. intros i Hi. symmetry. apply put_lo, Hi. Qed.

Lemma regs_vi n rs qs x : Forall rs_ok rs -> length qs = length rs ->
  let u := mv n (Kreg rs) x in let z := stackq rs qs in let z' := stackq rs (new_duals n rs qs x) in
  domreg rs z' /\ forall y, domreg rs y ->
    fsreg rs z' + rsum (tot rs) (fun i => u i * (y i - z' i) + (z i - z' i) * (y i - z' i) / sreg rs i) <= fsreg rs y.
Proof.
  cbv zeta. intros Hok. revert qs. induction Hok as [|r rs Hr Hok IH]; intros [|q qs] Hl; try discriminate.
  { split; [exact I|]. intros y _. cbn. lra. }
  specialize (IH qs ltac:(simpl in Hl; lia)). destruct IH as [I1 I2]. pose proof (reg_vi n r q x Hr) as [J1 J2]. cbv zeta in J1, J2.
  assert (EN : new_duals n (r :: rs) (q :: qs) x = new_dual n r q x :: new_duals n rs qs x) by reflexivity. rewrite EN. clear EN.
  cbn [stackq Kreg sreg domreg fsreg tot]. rewrite shift_put. split.
  - split; [|exact I1]. eapply dual_ok_ext; [exact Hr|apply put_veq'|exact J1].
  - intros y [Y1 Y2]. specialize (I2 _ Y2). specialize (J2 _ Y1). rewrite (conj_r_ext r _ (effq r (new_dual n r q x)) (put_veq _ _ _)).
    rewrite rsum_app.
    match goal with |- _ + (rsum (rs_p r) ?f + rsum (tot rs) ?g) <= _ =>
      assert (E1 : rsum (rs_p r) f = rsum (rs_p r) (fun i => mv n (rs_G r) x i * (y i - effq r (new_dual n r q x) i) + (effq r q i - effq r (new_dual n r q x) i) * (y i - effq r (new_dual n r q x) i) / effs r));
      [|assert (E2 : rsum (tot rs) g = rsum (tot rs) (fun i => mv n (Kreg rs) x i * (shift (rs_p r) y i - stackq rs (new_duals n rs qs x) i) + (stackq rs qs i - stackq rs (new_duals n rs qs x) i) * (shift (rs_p r) y i - stackq rs (new_duals n rs qs x) i) / sreg rs i))] end.
    + apply rsum_ext. intros i Hi. rewrite mv_put_lo by exact Hi. rewrite !put_lo by exact Hi. reflexivity.
    + apply rsum_ext. intros i Hi. rewrite mv_put_hi, !put_hi. reflexivity.
    + rewrite E1, E2. lra.
Qed.
Lemma regs_sup n rs x z : Forall rs_ok rs -> domreg rs z ->
  rsum (tot rs) (fun i => mv n (Kreg rs) x i * z i) - fsreg rs z <= lsum rs (fun r => rs_value n r x).
Proof.
  intros Hok. revert z. induction Hok as [|r rs Hr Hok IH]; intros z; [intros _; cbn; unfold lsum; simpl; lra|].
  intros [D1 D2]. specialize (IH _ D2). pose proof (reg_sup n r x z Hr D1) as H. cbn [Kreg tot fsreg]. rewrite lsum_cons, rsum_app.
  rewrite (rsum_ext (rs_p r) _ (fun i => mv n (rs_G r) x i * z i)) by (intros i Hi; rewrite mv_put_lo by exact Hi; reflexivity).
  rewrite (rsum_ext (tot rs) _ (fun i => mv n (Kreg rs) x i * shift (rs_p r) z i)) by (intros i Hi; rewrite mv_put_hi; reflexivity). lra.
Qed.
Lemma sreg_pos rs i : Forall rs_ok rs -> 0 < sreg rs i.
Proof.
  intros Hok. revert i. induction Hok as [|r rs Hr Hok IH]; intros i; cbn [sreg]; [unfold vones; lra|]. unfold put.
  destruct (Nat.ltb i (rs_p r)); [apply effs_pos; exact Hr|apply IH].
Qed.
Lemma creg_nonneg rs : Forall rs_ok rs -> 0 <= creg rs.
Proof. induction 1 as [|r rs (Hw & Hs & _) Hok IH]; cbn [creg]; [lra|]. assert (0 < 2 / rs_s r) by (apply Rdiv_lt_0_compat; lra). lra. Qed.
Lemma breg_nonneg rs : Forall rs_ok rs -> 0 <= breg rs.
Proof.
  induction 1 as [|r rs Hr Hok IH]; cbn [breg]; [lra|].
  assert (0 <= INR (rs_p r) * ((2 * rs_w r) ^ 2 / effs r)); [|lra]. apply Rmult_le_pos; [apply pos_INR|].
  apply Rdiv_le_0_compat; [apply pow2_ge_0|apply effs_pos; exact Hr].
Qed.
Lemma regs_att n rs x : Forall rs_ok rs -> exists Y, domreg rs Y /\
  rsum (tot rs) (fun i => mv n (Kreg rs) x i * Y i) - fsreg rs Y = lsum rs (fun r => rs_value n r x) /\
  forall z, domreg rs z -> rsum (tot rs) (fun i => (Y i - z i) ^ 2 / sreg rs i) <=
    breg rs + creg rs * (lsum rs (fun r => rs_value n r x) - (rsum (tot rs) (fun i => mv n (Kreg rs) x i * z i) - fsreg rs z)).
Proof.
  induction 1 as [|r rs Hr Hok IH].
  { exists vzeros. split; [exact I|]. split; [cbn; unfold lsum; simpl; lra|]. intros z _. cbn. unfold lsum; simpl. lra. }
  destruct IH as (Y2 & D2 & E2 & B2). destruct (reg_att n r x Hr) as (Y1 & D1 & E1 & B1).
  exists (put (rs_p r) Y1 Y2). cbn [Kreg tot fsreg domreg breg creg sreg]. rewrite shift_put, lsum_cons.
  assert (S1 : forall z, rsum (rs_p r + tot rs) (fun i => mv n (putm (rs_p r) (rs_G r) (Kreg rs)) x i * z i) =
     rsum (rs_p r) (fun i => mv n (rs_G r) x i * z i) + rsum (tot rs) (fun i => mv n (Kreg rs) x i * shift (rs_p r) z i)).
  { intros z. rewrite rsum_app. f_equal; apply rsum_ext; intros i Hi; [rewrite mv_put_lo by exact Hi|rewrite mv_put_hi]; reflexivity. }
  split; [split; [|exact D2]; eapply dual_ok_ext; [exact Hr|apply put_veq'|exact D1]|]. split.
  { rewrite S1, shift_put, (conj_r_ext r _ Y1 (put_veq _ _ _)).
    rewrite (rsum_ext (rs_p r) _ (fun i => mv n (rs_G r) x i * Y1 i)) by (intros i Hi; rewrite put_lo by exact Hi; reflexivity). lra. }
  intros z [Z1 Z2]. rewrite S1. specialize (B1 z Z1). specialize (B2 _ Z2). rewrite rsum_app.
  rewrite (rsum_ext (rs_p r) _ (fun i => (Y1 i - z i) ^ 2 / effs r)) by (intros i Hi; rewrite !put_lo by exact Hi; reflexivity).
  rewrite (rsum_ext (tot rs) _ (fun i => (Y2 i - shift (rs_p r) z i) ^ 2 / sreg rs i)) by (intros i Hi; rewrite !put_hi; reflexivity).
  pose proof (reg_sup n r x z Hr Z1) as G1. pose proof (regs_sup n rs x _ Hok Z2) as G2. pose proof (creg_nonneg rs Hok) as C0.
  pose proof Hr as (Hw & Hs & _). assert (C1 : 0 < 2 / rs_s r) by (apply Rdiv_lt_0_compat; lra).
  set (g1 := rs_value n r x - (rsum (rs_p r) (fun i => mv n (rs_G r) x i * z i) - conj_r r z)) in *.
  set (g2 := lsum rs (fun r => rs_value n r x) - (rsum (tot rs) (fun i => mv n (Kreg rs) x i * shift (rs_p r) z i) - fsreg rs (shift (rs_p r) z))) in *.
  assert (0 <= g1) by (unfold g1; lra). assert (0 <= g2) by (unfold g2; lra).
  match goal with |- _ <= _ + _ * ?g => replace g with (g1 + g2) by (unfold g1, g2; ring) end.
  assert (0 <= 2 / rs_s r * g2) by (apply Rmult_le_pos; lra). assert (0 <= creg rs * g1) by (apply Rmult_le_pos; lra). lra.
Qed.
Lemma regs_subgrad n rs x qs : Forall rs_ok rs -> Forall2 (fun r q => rs_subgrad n r x q) rs qs ->
  domreg rs (stackq rs qs) /\
  rsum (tot rs) (fun i => mv n (Kreg rs) x i * stackq rs qs i) - fsreg rs (stackq rs qs) = lsum rs (fun r => rs_value n r x).
Proof.
  intros Hok HF. induction HF as [|r q rs qs Hq HF IH].
  { split; [exact I|]. cbn. unfold lsum; simpl. lra. }
  inversion Hok as [|? ? Hr Hok']; subst. destruct (IH Hok') as [I1 I2]. destruct (reg_subgrad n r x q Hr Hq) as [J1 J2].
  cbn [stackq Kreg tot fsreg domreg]. rewrite shift_put, lsum_cons, rsum_app. split.
  { split; [|exact I1]. eapply dual_ok_ext; [exact Hr|apply put_veq'|exact J1]. }
  rewrite (conj_r_ext r _ (effq r q) (put_veq _ _ _)).
  rewrite (rsum_ext (rs_p r) _ (fun i => mv n (rs_G r) x i * effq r q i)) by (intros i Hi; rewrite mv_put_lo, put_lo by exact Hi; reflexivity).
  rewrite (rsum_ext (tot rs) _ (fun i => mv n (Kreg rs) x i * stackq rs qs i)) by (intros i Hi; rewrite mv_put_hi, put_hi; reflexivity). lra.
Qed.
Lemma regs_update n rs qs j : length qs = length rs ->
  lsum (combine rs qs) (fun rq => r_update_primal (model_reg n (fst rq)) (snd rq) j) = mtv (tot rs) (Kreg rs) (stackq rs qs) j.
Proof.
  revert qs. induction rs as [|r rs IH]; intros [|q qs] Hl; try discriminate; [reflexivity|].
  cbn [combine tot Kreg stackq]. rewrite lsum_cons. cbn [fst snd]. rewrite IH by (simpl in Hl; lia). rewrite mtv_put, upd_primal_eff. reflexivity.
Qed.

(** * The step sizes of a regulariser fit its operator: dual step times row sums of |G| at most 1, column sums of |G| at
    most the value the regulariser returns for the volume step (times the weight for the l2 norm, whose weight multiplies
    the volume update). *)
Definition rs_scale (r : rspec) : R := match rs_kind r with RS_l2 => rs_w r | _ => 1 end.
Definition rs_steps_ok (n : nat) (r : rspec) : Prop :=
  (forall i, (i < rs_p r)%nat -> rs_s r * rsum n (fun j => Rabs (rs_G r i j)) <= 1) /\
  (forall j, (j < n)%nat -> rs_scale r * rsum (rs_p r) (fun i => Rabs (rs_G r i j)) <= rs_t r j).
Lemma scale_pos r : rs_ok r -> 0 < rs_scale r.
Proof. intros (Hw & _). unfold rs_scale. destruct (rs_kind r); lra. Qed.
Lemma effs_scale r : effs r = rs_scale r * rs_s r.
Proof. unfold effs, rs_scale. destruct (rs_kind r); ring. Qed.
Fixpoint unstack (rs : list rspec) (z : vec) : list vec :=
  match rs with r :: rs' => (fun i => z i / rs_scale r) :: unstack rs' (shift (rs_p r) z) | [] => [] end.
Definition rblock (r : rspec) : block := mkBlock (rs_p r) (fun i j => rs_scale r * rs_G r i j) (fun _ => rs_s r / rs_scale r) (rs_t r).
Lemma unstack_dot n rs x z : Forall rs_ok rs -> stack_dot n x (combine (map rblock rs) (unstack rs z)) = rsum (tot rs) (fun i => mv n (Kreg rs) x i * z i).
Proof.
  intros Hok. revert z. induction Hok as [|r rs Hr Hok IH]; intros z; [reflexivity|]. cbn [map unstack combine tot Kreg].
  unfold stack_dot. rewrite lsum_cons. fold (stack_dot n x (combine (map rblock rs) (unstack rs (shift (rs_p r) z)))). rewrite IH, rsum_app.
  cbn [fst snd rblock bk_p bk_K]. unfold dot. f_equal; apply rsum_ext; intros i Hi; [|rewrite mv_put_hi; reflexivity]. rewrite mv_put_lo by exact Hi.
  pose proof (scale_pos r Hr). replace (mv n (fun i j => rs_scale r * rs_G r i j) x i) with (rs_scale r * mv n (rs_G r) x i).
  - field. lra.
  - unfold mv. rewrite <- rsum_scal. apply rsum_ext. intros; ring.
Qed.
Lemma unstack_dual rs z : Forall rs_ok rs -> stack_dual (combine (map rblock rs) (unstack rs z)) = rsum (tot rs) (fun i => z i ^ 2 / sreg rs i).
Proof.
  intros Hok. revert z. induction Hok as [|r rs Hr Hok IH]; intros z; [reflexivity|]. cbn [map unstack combine tot sreg].
  unfold stack_dual. rewrite lsum_cons. fold (stack_dual (combine (map rblock rs) (unstack rs (shift (rs_p r) z)))). rewrite IH, rsum_app.
  cbn [fst snd rblock bk_p bk_s]. f_equal; apply rsum_ext; intros i Hi; [rewrite put_lo by exact Hi|rewrite put_hi; reflexivity].
  pose proof (scale_pos r Hr). pose proof Hr as (_ & Hs & _). rewrite effs_scale. field. lra.
Qed.
Lemma unstack_length rs z : length (unstack rs z) = length rs.
Proof. revert z. induction rs as [|r rs IH]; intros z; simpl; [reflexivity|]. rewrite IH. reflexivity. Qed.

(** what the steps have to satisfy: positive, and small enough for the operators they multiply *)
Definition pd_steps_ok (P : problem) (M : mat) (rs : list rspec) (l : option R) : Prop :=
  (forall i, (i < p_m P)%nat -> 0 < pdhg_sigma P l i) /\ (forall j, (j < p_n P)%nat -> 0 < pdhg_tau P l j) /\
  forall x z w,
    (forall j, (j < p_n P)%nat -> mask_at (p_xmask P) j = 0 -> x j = 0) ->
    (forall i, (i < p_m P)%nat -> mask_at (train_mask P) i = 0 -> z i = 0) ->
    (rsum (p_m P) (fun i => mv (p_n P) M x i * z i) + rsum (tot rs) (fun i => mv (p_n P) (Kreg rs) x i * w i)) ^ 2 <=
    rsum (p_n P) (fun j => x j ^ 2 / pdhg_tau P l j) *
      (rsum (p_m P) (fun i => z i ^ 2 / pdhg_sigma P l i) + rsum (tot rs) (fun i => w i ^ 2 / sreg rs i)).
Lemma rblocks_ok n rs : Forall rs_ok rs -> Forall (rs_steps_ok n) rs ->
  Forall2 (fun r B => block_ok n B /\ forall j, r_tau r j = bk_t B j) (map (model_reg n) rs) (map rblock rs).
Proof.
  intros Hok Hst. induction rs as [|r rs' IH]; [constructor|]. inversion Hok as [|? ? Hr Hok']; inversion Hst as [|? ? Hs Hst']; subst.
  cbn [map]. constructor; [|apply IH; assumption]. destruct Hs as [S1 S2]. split; [|reflexivity]. split; cbn [rblock bk_p bk_K bk_s bk_t].
  - pose proof (scale_pos r Hr) as Hc. pose proof Hr as (_ & Hs0 & _). intros i Hi. split; [apply Rdiv_lt_0_compat; assumption|].
    specialize (S1 i Hi). rewrite (rsum_ext n _ (fun j => rs_scale r * Rabs (rs_G r i j))) by (intros; rewrite Rabs_mult, Rabs_right by lra; reflexivity).
    rewrite rsum_scal. replace (rs_s r / rs_scale r * (rs_scale r * rsum n (fun j => Rabs (rs_G r i j)))) with (rs_s r * rsum n (fun j => Rabs (rs_G r i j))) by (field; lra). exact S1.
  - pose proof (scale_pos r Hr) as Hc. intros j Hj. rewrite (rsum_ext (rs_p r) _ (fun i => rs_scale r * Rabs (rs_G r i j))) by (intros; rewrite Rabs_mult, Rabs_right by lra; reflexivity).
    rewrite rsum_scal. apply S2, Hj.
Qed.
(** the preconditioned steps *)
Lemma diag_steps_ok P M rs : p_op P = mat_op (p_m P) (p_n P) M -> p_regs P = map (model_reg (p_n P)) rs ->
  Forall rs_ok rs -> Forall (rs_steps_ok (p_n P)) rs -> binary_mask (p_xmask P) -> binary_mask (train_mask P) ->
  safe_sigma P -> safe_tau P -> 0 < p_relax P <= 1 -> pd_steps_ok P M rs None.
Proof.
  intros Hop Hregs Hok Hst Hbx Hbm Hsafes Hsafet Hrel. split; [|split].
  - intros i Hi. destruct (guard_safe _ _ i Hsafes Hi) as [G _]. unfold pdhg_sigma, diag_sigma. apply Rdiv_lt_0_compat; [lra|exact G].
  - intros j Hj. destruct (guard_safe _ _ j Hsafet Hj) as [G _]. unfold pdhg_tau, diag_tau. apply Rdiv_lt_0_compat; [lra|exact G].
  - intros x z w Hx Hz. pose proof (C32_pdhg_steps P M (map rblock rs) (unstack rs w) x z Hop Hbx Hbm Hsafes Hsafet Hrel) as H.
    rewrite Hregs in H. specialize (H (rblocks_ok (p_n P) rs Hok Hst)). rewrite unstack_length, map_length in H. specialize (H eq_refl Hx Hz).
    rewrite unstack_dot, unstack_dual in H by exact Hok. exact H.
Qed.
(** the un-preconditioned steps, when the estimate L of the operator norm is not more than [relaxation] times too small *)
Lemma lips_steps_ok P M rs L : p_regs P = map (model_reg (p_n P)) rs ->
  Forall rs_ok rs -> Forall (rs_steps_ok (p_n P)) rs -> 0 < L -> 0 < p_relax P <= 1 ->
  (forall x, norm2 (p_m P) (mv (p_n P) M x) <= (L / p_relax P) ^ 2 * norm2 (p_n P) x) -> pd_steps_ok P M rs (Some L).
Proof.
  intros Hregs Hok Hst HL Hrel Hbd. set (n := p_n P). set (m := p_m P). set (w0 := p_relax P) in *.
  assert (Et : forall j, fold_left (fun t r => t + r_tau r j) (p_regs P) L = L + lsum rs (fun r => rs_t r j)).
  { intros j. rewrite Hregs. clear. revert L. induction rs as [|r rs IH]; intros L; [unfold lsum; simpl; ring|]. cbn [map fold_left]. rewrite IH. unfold lsum. simpl. unfold model_reg. simpl. ring. }
  assert (T0 : forall j, (j < n)%nat -> 0 <= lsum rs (fun r => rs_t r j)).
  { intros j Hj. clear - Hok Hst Hj. induction rs as [|r rs IH]; [unfold lsum; simpl; lra|]. inversion Hok as [|? ? Hr Hok']; inversion Hst as [|? ? Hs Hst']; subst.
    unfold lsum. cbn [map fold_right]. apply Rplus_le_le_0_compat; [|apply IH; assumption]. eapply Rle_trans; [|apply (proj2 Hs), Hj].
    apply Rmult_le_pos; [left; apply scale_pos, Hr|apply rsum_nonneg; intros; apply Rabs_pos]. }
  assert (ET : forall j, (j < n)%nat -> / pdhg_tau P (Some L) j = L / w0 + lsum rs (fun r => rs_t r j) / w0).
  { intros j Hj. unfold pdhg_tau, lips_tau. rewrite Et. fold w0. specialize (T0 j Hj). field. lra. }
  split; [|split].
  - intros i _. unfold pdhg_sigma, lips_sigma. fold w0. apply Rdiv_lt_0_compat; lra.
  - intros j Hj. unfold pdhg_tau, lips_tau. rewrite Et. fold w0. apply Rdiv_lt_0_compat; [lra|]. specialize (T0 j Hj). lra.
  - intros x z w _ _.
    assert (HFb : Forall (fun bq => block_ok n (fst bq)) (combine (map rblock rs) (unstack rs w))).
    { pose proof (rblocks_ok n rs Hok Hst) as HF. assert (HB : Forall (block_ok n) (map rblock rs)) by (clear - HF; induction HF as [|? ? ? ? [? _]]; constructor; auto).
      revert HB. clear. generalize (unstack rs w) as q, (map rblock rs) as bs. intros q bs HB. revert q.
      induction HB as [|b0 bs0 Hb0 HB0 IHB]; intros [|q0 q1]; simpl; try constructor; simpl; auto. }
    destruct (stack_cs n x _ HFb) as (HC & HX & HY). rewrite unstack_dot, unstack_dual in HC by exact Hok. rewrite unstack_dual in HY by exact Hok.
    assert (El : forall j, lsum (combine (map rblock rs) (unstack rs w)) (fun bq => bk_t (fst bq) j) = lsum rs (fun r => rs_t r j)).
    { intros j. clear. revert w. induction rs as [|r rs IH]; intros w; [reflexivity|]. cbn [map unstack combine]. rewrite !lsum_cons, IH. reflexivity. }
    rewrite (rsum_ext n _ (fun j => lsum rs (fun r => rs_t r j) * x j ^ 2)) in HC, HX by (intros; rewrite El; reflexivity).
    assert (E1 : rsum n (fun j => x j ^ 2 / pdhg_tau P (Some L) j) = L / w0 * norm2 n x + rsum n (fun j => lsum rs (fun r => rs_t r j) * x j ^ 2) / w0).
    { unfold norm2. rewrite <- rsum_scal. unfold Rdiv at 3. rewrite <- rsum_scal_r, <- rsum_plus. apply rsum_ext. intros j Hj. unfold Rdiv at 1. rewrite (ET j Hj). field. lra. }
    assert (E2 : rsum m (fun i => z i ^ 2 / pdhg_sigma P (Some L) i) = L / w0 * norm2 m z).
    { unfold norm2. rewrite <- rsum_scal. apply rsum_ext. intros i _. unfold pdhg_sigma, lips_sigma. fold w0. field. lra. }
    fold n m. rewrite E1, E2. assert (HLw : 0 < L / w0) by (apply Rdiv_lt_0_compat; lra).
    assert (Nx : 0 <= norm2 n x) by (apply rsum_nonneg; intros; apply pow2_ge_0). assert (Nz : 0 <= norm2 m z) by (apply rsum_nonneg; intros; apply pow2_ge_0).
    assert (HXw : rsum n (fun j => lsum rs (fun r => rs_t r j) * x j ^ 2) <= rsum n (fun j => lsum rs (fun r => rs_t r j) * x j ^ 2) / w0).
    { apply Rmult_le_reg_r with w0; [lra|]. unfold Rdiv. rewrite Rmult_assoc, Rinv_l by lra. nra. }
    apply cs_add; try assumption; try (apply Rmult_le_pos; lra); try lra.
    + eapply Rle_trans; [apply rsum_CS|]. apply Rle_trans with ((L / w0) ^ 2 * norm2 n x * norm2 m z); [|right; ring].
      apply Rmult_le_compat_r; [exact Nz|]. apply Hbd.
    + eapply Rle_trans; [exact HC|]. apply Rmult_le_compat_r; [exact HY|exact HXw].
Qed.

Section Run.
  Variables (P : problem) (M : mat) (rs : list rspec) (l : option R).
  Hypothesis Hop : p_op P = mat_op (p_m P) (p_n P) M.
  Hypothesis Hregs : p_regs P = map (model_reg (p_n P)) rs.
  Hypothesis Hok : Forall rs_ok rs.
  Hypothesis Hkind : dt_kind (p_dterm P) = K_l2.
  Hypothesis Hlim : limits_ok P.
  Hypothesis Hbx : binary_mask (p_xmask P).
  Hypothesis Hbm : binary_mask (train_mask P).
  Hypothesis Hsteps : pd_steps_ok P M rs l.

  Let n := p_n P.
  Let m := p_m P.
  Let sg := pdhg_sigma P l.
  Let tau := pdhg_tau P l.
  Lemma sig_pos i : (i < m)%nat -> 0 < sg i.
  Proof. apply Hsteps. Qed.
  Lemma tau_pos j : (j < n)%nat -> 0 < tau j.
  Proof. apply Hsteps. Qed.

  Definition mt : nat := (m + tot rs)%nat.
  Definition Kst : mat := putm m M (Kreg rs).
  Definition sgst : vec := put m sg (sreg rs).
  Definition SXp (x : vec) : Prop := forall j, (j < n)%nat -> mask_at (p_xmask P) j = 0 -> x j = 0.
  Definition SZp (z : vec) : Prop := forall i, (i < m)%nat -> mask_at (train_mask P) i = 0 -> z i = 0.
  Definition domz (z : vec) : Prop := SZp z /\ domreg rs (shift m z).
  Definition Fst (z : vec) : R := rsum m (fun i => z i ^ 2 / 2 + target P i * z i) + fsreg rs (shift m z).
  Lemma kd_split x z : kd n mt Kst x z = rsum m (fun i => mv n M x i * z i) + rsum (tot rs) (fun i => mv n (Kreg rs) x i * shift m z i).
  Proof.
    unfold kd, dot, mt, Kst. rewrite rsum_app. f_equal; apply rsum_ext; intros i Hi; [rewrite mv_put_lo by exact Hi|rewrite mv_put_hi]; reflexivity.
  Qed.
  Lemma ip_split a b : ip mt sgst a b = rsum m (fun i => a i * b i / sg i) + rsum (tot rs) (fun i => shift m a i * shift m b i / sreg rs i).
  Proof. unfold ip, mt, sgst. rewrite rsum_app. f_equal; apply rsum_ext; intros i Hi; [rewrite put_lo by exact Hi|rewrite put_hi]; reflexivity. Qed.

  Lemma run_psd x z : SXp x -> SZp z -> 0 <= ip n tau x x /\ 0 <= ip mt sgst z z /\ kd n mt Kst x z ^ 2 <= ip n tau x x * ip mt sgst z z.
  Proof.
    intros Hx Hz. split; [|split].
    - apply rsum_nonneg. intros j Hj. apply Rdiv_le_0_compat; [nra|apply tau_pos, Hj].
    - rewrite ip_split. apply Rplus_le_le_0_compat; apply rsum_nonneg; intros i Hi; apply Rdiv_le_0_compat; try nra; [apply sig_pos, Hi|apply sreg_pos, Hok].
    - pose proof (proj2 (proj2 Hsteps) x z (shift m z) Hx Hz) as H.
      rewrite kd_split, ip_split. fold n m tau sg in H.
      assert (E1 : ip n tau x x = rsum n (fun j => x j ^ 2 / tau j)) by (apply rsum_ext; intros; unfold Rdiv; ring).
      assert (E2 : rsum m (fun i => z i * z i / sg i) = rsum m (fun i => z i ^ 2 / sg i)) by (apply rsum_ext; intros; unfold Rdiv; ring).
      assert (E3 : rsum (tot rs) (fun i => shift m z i * shift m z i / sreg rs i) = rsum (tot rs) (fun i => shift m z i ^ 2 / sreg rs i)) by (apply rsum_ext; intros; unfold Rdiv; ring).
      rewrite E1, E2, E3. exact H.
  Qed.

  (** the run *)
  Let it := pdhg_iterate P l.
  Lemma it_S k : it (S k) = pdhg_step P l (it k).
  Proof. reflexivity. Qed.
  Definition xs (k : nat) : vec := pd_x (it (S k)).
  Definition zs (k : nat) : vec := put m (pd_p (it (S (S k)))) (stackq rs (pd_q (it (S (S k))))).
  Lemma q_S k : pd_q (it (S k)) = new_duals n rs (pd_q (it k)) (pd_xrelax (it k)).
  Proof. rewrite it_S. unfold pdhg_step, pdhg_update, new_duals. cbn [pd_q]. rewrite Hregs. reflexivity. Qed.
  Lemma q_len k : length (pd_q (it k)) = length rs.
  Proof.
    induction k as [|k IH].
    - unfold it, pdhg_iterate. cbn [iterate pdhg_start pd_q]. rewrite Hregs, !map_length. reflexivity.
    - rewrite q_S. unfold new_duals. rewrite map_length, combine_length, map_length. lia.
  Qed.
  Lemma p_S k i : (i < m)%nat -> pd_p (it (S k)) i =
    mask_at (train_mask P) i * ((pd_p (it k) i + sg i * (mv n M (pd_xrelax (it k)) i - target P i)) / (1 + sg i)).
  Proof.
    intros Hi. pose proof (sig_pos i Hi) as Hs. rewrite it_S. unfold pdhg_step, pdhg_update. cbn [pd_p]. rewrite Hop at 1. cbn [mat_op opA]. fold n.
    unfold mul_mask, mask_at, pdhg_dt, assigned, proximal_dual, update_dual, assign_data, add_background, sub_sigma_data, target, back_at. simpl.
    rewrite Hkind. simpl. fold sg. unfold train_mask. destruct (fst (initialize_b_masks (p_bmask P) (p_btest P))), (dt_background (p_dterm P)).
    all: change (match l with Some L => lips_sigma L (p_relax P) | None => diag_sigma (p_m P) (p_op P) (p_relax P) (p_xmask P) end i) with (sg i); field; lra.
  Qed.
  Lemma x_S k : pd_x (it (S k)) = constrain (p_lower P) (p_upper P) (p_xmask P)
    (fun j => pd_x (it k) j - mtv mt Kst (put m (pd_p (it (S k))) (stackq rs (pd_q (it (S k))))) j * tau j).
  Proof.
    rewrite it_S at 1. unfold pdhg_step, pdhg_update. cbn [pd_x]. f_equal. apply vec_ext. intros j. unfold vsub, vmul. f_equal. f_equal.
    rewrite Hregs, fold_update_sum. unfold mt, Kst. rewrite mtv_put. f_equal.
    - rewrite Hop at 1. cbn [mat_op opAt]. unfold mtv. apply rsum_ext. intros i Hi. rewrite it_S. reflexivity.
    - rewrite <- (regs_update n rs _ j (q_len (S k))). f_equal. rewrite q_S. reflexivity.
  Qed.
  Lemma xr_S k : pd_xrelax (it (S k)) = lc 2 (pd_x (it (S k))) (-1) (pd_x (it k)).
  Proof. rewrite it_S. unfold pdhg_step, pdhg_update, lc. cbn [pd_xrelax pd_x]. apply vec_ext. intros j. ring. Qed.

  Lemma run_feas k : obeys_limits P (xs k).
  Proof. unfold xs. rewrite x_S. apply constrain_feasible. exact Hlim. Qed.
  Lemma feas_S x : obeys_limits P x -> SXp x.
  Proof. intros H j Hj E. exact (feasible_out _ _ _ _ _ j H Hj E). Qed.
  Lemma dual_dom k : domz (put m (pd_p (it (S k))) (stackq rs (pd_q (it (S k))))).
  Proof.
    split.
    - intros i Hi E. rewrite put_lo by exact Hi. rewrite p_S by exact Hi. rewrite E. ring.
    - rewrite shift_put, q_S. apply (proj1 (regs_vi n rs (pd_q (it k)) (pd_xrelax (it k)) Hok (q_len k))).
  Qed.
  Lemma run_primal k X : obeys_limits P X ->
    ip n tau (lc 1 (xs k) (-1) (xs (S k))) (lc 1 X (-1) (xs (S k))) <= kd n mt Kst (lc 1 X (-1) (xs (S k))) (zs k).
  Proof.
    intros HX. unfold kd. rewrite adjoint_mat. unfold ip, dot. apply rsum_le. intros j Hj. pose proof (tau_pos j Hj) as Ht.
    pose proof (constrain_vi (p_lower P) (p_upper P) (p_xmask P) n
      (fun j => pd_x (it (S k)) j - mtv mt Kst (put m (pd_p (it (S (S k)))) (stackq rs (pd_q (it (S (S k)))))) j * tau j) X j Hlim Hbx HX Hj) as V.
    rewrite <- x_S in V. fold (xs k) in V. fold (xs (S k)) in V. fold (zs k) in V. cbv beta in V. unfold lc.
    set (g := mtv mt Kst (zs k) j) in *. apply Rmult_le_reg_r with (tau j); [exact Ht|].
    replace ((1 * xs k j + -1 * xs (S k) j) * (1 * X j + -1 * xs (S k) j) / tau j * tau j) with ((xs k j - xs (S k) j) * (X j - xs (S k) j)) by (field; lra). lra.
  Qed.
  Lemma mv_mt_xr k y : kd n mt Kst (lc 2 (xs (S k)) (-1) (xs k)) y = kd n mt Kst (pd_xrelax (it (S (S k)))) y.
  Proof. rewrite xr_S. reflexivity. Qed.
  Lemma run_dual k Y : domz Y ->
    Fst (zs (S k)) + kd n mt Kst (lc 2 (xs (S k)) (-1) (xs k)) (lc 1 Y (-1) (zs (S k))) + ip mt sgst (lc 1 (zs k) (-1) (zs (S k))) (lc 1 Y (-1) (zs (S k))) <= Fst Y.
  Proof.
    intros [Y1 Y2]. rewrite mv_mt_xr, kd_split, ip_split. set (xr := pd_xrelax (it (S (S k)))).
    pose proof (proj2 (regs_vi n rs (pd_q (it (S (S k)))) xr Hok (q_len _)) _ Y2) as R.
    cbv zeta in R. unfold xr in R. rewrite <- q_S in R. fold xr in R.
    assert (Ez' : shift m (zs (S k)) = stackq rs (pd_q (it (S (S (S k)))))) by (unfold zs; apply shift_put).
    assert (Ez : shift m (zs k) = stackq rs (pd_q (it (S (S k))))) by (unfold zs; apply shift_put).
    rewrite <- Ez, <- Ez' in R. rewrite rsum_plus in R.
    assert (Dt : rsum m (fun i => zs (S k) i ^ 2 / 2 + target P i * zs (S k) i) +
       (rsum m (fun i => mv n M xr i * lc 1 Y (-1) (zs (S k)) i) + rsum m (fun i => lc 1 (zs k) (-1) (zs (S k)) i * lc 1 Y (-1) (zs (S k)) i / sg i))
       <= rsum m (fun i => Y i ^ 2 / 2 + target P i * Y i)).
    { rewrite <- !rsum_plus. apply rsum_le. intros i Hi. pose proof (sig_pos i Hi) as Hs. unfold lc.
      assert (E1 : zs (S k) i = mask_at (train_mask P) i * ((zs k i + sg i * (mv n M xr i - target P i)) / (1 + sg i))).
      { unfold zs. rewrite !put_lo by exact Hi. apply p_S, Hi. }
      destruct (Hbm i) as [E|E].
      - rewrite E, Rmult_0_l in E1. rewrite E1, (Y1 i Hi E). unfold Rdiv. right. ring.
      - rewrite E, Rmult_1_l in E1. set (z' := zs (S k) i) in *. set (z := zs k i) in *. set (u := mv n M xr i) in *. set (b := target P i) in *.
        assert (Ezz : z = z' * (1 + sg i) - sg i * (u - b)) by (rewrite E1; field; lra). rewrite Ezz.
        replace (z' ^ 2 / 2 + b * z' + (u * (1 * Y i + -1 * z') + (1 * (z' * (1 + sg i) - sg i * (u - b)) + -1 * z') * (1 * Y i + -1 * z') / sg i))
          with (Y i ^ 2 / 2 + b * Y i - (Y i - z') ^ 2 / 2) by (field; lra).
        pose proof (pow2_ge_0 (Y i - z')). lra. }
    unfold Fst.
    assert (Er : forall a b, rsum (tot rs) (fun i => mv n (Kreg rs) xr i * shift m (lc 1 a (-1) b) i) = rsum (tot rs) (fun i => mv n (Kreg rs) xr i * (shift m a i - shift m b i))).
    { intros a b. apply rsum_ext. intros i _. unfold shift, lc. ring. }
    rewrite Er.
    assert (Er2 : rsum (tot rs) (fun i => shift m (lc 1 (zs k) (-1) (zs (S k))) i * shift m (lc 1 Y (-1) (zs (S k))) i / sreg rs i) =
       rsum (tot rs) (fun i => (shift m (zs k) i - shift m (zs (S k)) i) * (shift m Y i - shift m (zs (S k)) i) / sreg rs i)).
    { apply rsum_ext. intros i _. unfold shift, lc, Rdiv. ring. }
    rewrite Er2. lra.
  Qed.

  (** the objective *)
  Definition cdata : R := rsum m (fun i => 2 / sg i).
  Lemma cdata_nonneg : 0 <= cdata.
  Proof. apply rsum_nonneg. intros i Hi. left. apply Rdiv_lt_0_compat; [lra|apply sig_pos, Hi]. Qed.
  Lemma data_gap x p : SZp p -> l2_fit m n M (train_mask P) (target P) x - rsum m (fun i => mv n M x i * p i - (p i ^ 2 / 2 + target P i * p i)) =
    rsum m (fun i => (mask_at (train_mask P) i * (mv n M x i - target P i) - p i) ^ 2 / 2).
  Proof.
    intros Hp. unfold l2_fit, wres. rewrite <- rsum_scal, <- rsum_minus. apply rsum_ext. intros i Hi.
    destruct (Hbm i) as [E|E]; rewrite E; [rewrite (Hp i Hi E)|]; field.
  Qed.
  Lemma lag_split x z : lag n mt Kst Fst x z = rsum m (fun i => mv n M x i * z i - (z i ^ 2 / 2 + target P i * z i)) +
    (rsum (tot rs) (fun i => mv n (Kreg rs) x i * shift m z i) - fsreg rs (shift m z)).
  Proof. unfold lag, Fst. rewrite kd_split, rsum_minus. ring. Qed.
  Lemma run_sup x z : domz z -> lag n mt Kst Fst x z <= pd_objective P M rs x.
  Proof.
    intros [Z1 Z2]. rewrite lag_split. unfold pd_objective. fold n m. pose proof (regs_sup n rs x _ Hok Z2) as H. pose proof (data_gap x z Z1) as G.
    assert (0 <= rsum m (fun i => (mask_at (train_mask P) i * (mv n M x i - target P i) - z i) ^ 2 / 2)).
    { apply rsum_nonneg. intros i _. apply Rdiv_le_0_compat; [apply pow2_ge_0|lra]. }
    lra.
  Qed.
  Lemma run_att x : exists Y, domz Y /\ lag n mt Kst Fst x Y = pd_objective P M rs x /\
    forall z, domz z -> ip mt sgst (lc 1 Y (-1) z) (lc 1 Y (-1) z) <= breg rs + (cdata + creg rs) * (pd_objective P M rs x - lag n mt Kst Fst x z).
  Proof.
    destruct (regs_att n rs x Hok) as (Y2 & D2 & E2 & B2).
    set (Y1 := fun i => mask_at (train_mask P) i * (mv n M x i - target P i)).
    assert (SY : SZp (put m Y1 Y2)) by (intros i Hi E; rewrite put_lo by exact Hi; unfold Y1; rewrite E; ring).
    exists (put m Y1 Y2). split; [split; [exact SY|rewrite shift_put; exact D2]|]. split.
    - rewrite lag_split, shift_put, E2. unfold pd_objective. fold n m. pose proof (data_gap x _ SY) as G.
      rewrite (rsum_ext m (fun i => (mask_at (train_mask P) i * (mv n M x i - target P i) - put m Y1 Y2 i) ^ 2 / 2) (fun _ => 0)) in G.
      2:{ intros i Hi. rewrite put_lo by exact Hi. unfold Y1. field. }
      rewrite rsum_0 in G. lra.
    - intros z [Z1 Z2]. specialize (B2 _ Z2). rewrite ip_split, lag_split. unfold pd_objective. fold n m.
      pose proof (data_gap x z Z1) as G. pose proof (regs_sup n rs x _ Hok Z2) as G2.
      set (gd := rsum m (fun i => (mask_at (train_mask P) i * (mv n M x i - target P i) - z i) ^ 2 / 2)) in *.
      assert (Gd : 0 <= gd) by (apply rsum_nonneg; intros i _; apply Rdiv_le_0_compat; [apply pow2_ge_0|lra]).
      set (gr := lsum rs (fun r => rs_value n r x) - (rsum (tot rs) (fun i => mv n (Kreg rs) x i * shift m z i) - fsreg rs (shift m z))) in *.
      match goal with |- _ <= _ + _ * ?g => replace g with (gd + gr) by (unfold gr; lra) end.
      assert (Gr : 0 <= gr) by (unfold gr; lra).
      assert (T2 : rsum (tot rs) (fun i => shift m (lc 1 (put m Y1 Y2) (-1) z) i * shift m (lc 1 (put m Y1 Y2) (-1) z) i / sreg rs i) = rsum (tot rs) (fun i => (Y2 i - shift m z i) ^ 2 / sreg rs i)).
      { apply rsum_ext. intros i _. unfold shift, lc. rewrite put_hi. unfold Rdiv. ring. }
      rewrite T2.
      assert (T1 : rsum m (fun i => lc 1 (put m Y1 Y2) (-1) z i * lc 1 (put m Y1 Y2) (-1) z i / sg i) <= cdata * gd).
      { unfold cdata. rewrite Rmult_comm, <- rsum_scal. apply rsum_le. intros i Hi. pose proof (sig_pos i Hi) as Hs.
        assert (T : (mask_at (train_mask P) i * (mv n M x i - target P i) - z i) ^ 2 / 2 <= gd).
        { unfold gd. apply (rsum_term_le m (fun i => (mask_at (train_mask P) i * (mv n M x i - target P i) - z i) ^ 2 / 2)); [|exact Hi].
          intros k _. apply Rdiv_le_0_compat; [apply pow2_ge_0|lra]. }
        unfold lc. rewrite put_lo by exact Hi. fold (Y1 i) in T. assert (0 < / sg i) by (apply Rinv_0_lt_compat; exact Hs).
        replace ((1 * Y1 i + -1 * z i) * (1 * Y1 i + -1 * z i) / sg i) with ((Y1 i - z i) ^ 2 / 2 * (2 / sg i)) by (field; lra).
        apply Rmult_le_compat_r; [unfold Rdiv; lra|exact T]. }
      pose proof cdata_nonneg as C1. pose proof (creg_nonneg rs Hok) as C2.
      assert (0 <= cdata * gr) by (apply Rmult_le_pos; lra). assert (0 <= creg rs * gd) by (apply Rmult_le_pos; lra). lra.
  Qed.
  (** a primal-dual solution is a saddle point *)
  Definition zsol (s : pdhg_state) : vec := put m (pd_p s) (stackq rs (pd_q s)).
  Lemma sol_dom s : pd_solution P M rs s -> domz (zsol s) /\ lag n mt Kst Fst (pd_x s) (zsol s) = pd_objective P M rs (pd_x s).
  Proof.
    intros (Hf & Hp & Hq & Hv). destruct (regs_subgrad n rs (pd_x s) (pd_q s) Hok Hq) as [D E]. unfold zsol.
    assert (SZs : SZp (put m (pd_p s) (stackq rs (pd_q s)))).
    { intros i Hi E0. rewrite put_lo by exact Hi. rewrite (Hp i Hi), E0. ring. }
    split; [split; [exact SZs|rewrite shift_put; exact D]|]. rewrite lag_split, shift_put, E. unfold pd_objective. fold n m.
    pose proof (data_gap (pd_x s) _ SZs) as G.
    rewrite (rsum_ext m (fun i => (mask_at (train_mask P) i * (mv n M (pd_x s) i - target P i) - put m (pd_p s) (stackq rs (pd_q s)) i) ^ 2 / 2) (fun _ => 0)) in G.
    2:{ intros i Hi. rewrite put_lo by exact Hi. rewrite (Hp i Hi). fold n. field. }
    rewrite rsum_0 in G. lra.
  Qed.
  Lemma sol_primal s x : pd_solution P M rs s -> obeys_limits P x -> lag n mt Kst Fst (pd_x s) (zsol s) <= lag n mt Kst Fst x (zsol s).
  Proof.
    intros (Hf & Hp & Hq & Hv) Hx. unfold lag. apply Rplus_le_compat_r.
    assert (0 <= kd n mt Kst (lc 1 x (-1) (pd_x s)) (zsol s)).
    { unfold kd. rewrite adjoint_mat. apply rsum_nonneg. intros j Hj. specialize (Hv x j Hx Hj).
      assert (Hl : length (pd_q s) = length rs) by (clear - Hq; induction Hq; simpl; congruence).
      pose proof (regs_update (p_n P) rs (pd_q s) j Hl) as RU. rewrite RU in Hv.
      unfold zsol, mt, Kst. rewrite mtv_put. change (p_m P) with m in Hv. unfold lc. lra. }
    rewrite kd_l in H. lra.
  Qed.

  (** rate, for a solution [s] *)
  Definition rate (s : pdhg_state) : R :=
    let D := dist2 n mt Kst tau sgst xs zs 0 (pd_x s) (zsol s) in (1 + 2 * (cdata + creg rs)) * D + 2 * (D + breg rs).
  Lemma run_rate s k : pd_solution P M rs s ->
    pd_objective P M rs (pd_x (it (S (S k)))) - pd_objective P M rs (pd_x s) <= rate s / sqrt (INR (S k)).
  Proof.
    intros Hs. destruct (sol_dom s Hs) as [HZ HE]. pose proof cdata_nonneg. pose proof (creg_nonneg rs Hok).
    apply (last_iterate n mt Kst tau sgst SXp SZp) with (feas := obeys_limits P) (dom := domz) (Fs := Fst) (obj := pd_objective P M rs) (x := xs) (z := zs) (k := k).
    - intros a x b y Hx Hy j Hj E. unfold lc. rewrite (Hx j Hj E), (Hy j Hj E). ring.
    - intros a x b y Hx Hy j Hj E. unfold lc. rewrite (Hx j Hj E), (Hy j Hj E). ring.
    - exact run_psd.
    - exact feas_S.
    - intros z [H1 _]. exact H1.
    - exact run_feas.
    - intros j. apply dual_dom.
    - exact run_primal.
    - exact run_dual.
    - apply Hs.
    - exact HZ.
    - intros x Hx. apply sol_primal; assumption.
    - intros z Hz. rewrite HE. apply run_sup, Hz.
    - apply breg_nonneg, Hok.
    - lra.
    - intros x z _ Hz. apply run_sup, Hz.
    - intros x _. apply run_att.
    - symmetry. exact HE.
  Qed.
End Run.

Lemma pdhg_rate_at P M rs l s :
  p_op P = mat_op (p_m P) (p_n P) M -> p_regs P = map (model_reg (p_n P)) rs ->
  Forall rs_ok rs -> dt_kind (p_dterm P) = K_l2 -> limits_ok P -> binary_mask (p_xmask P) -> binary_mask (train_mask P) -> pd_steps_ok P M rs l ->
  p_tol P = None -> pd_solution P M rs s ->
  exists C, 0 <= C /\ forall it, (2 <= it)%nat ->
    let x := fst (pdhg_call P l it) in
    obeys_limits P x /\ forall y, obeys_limits P y -> pd_objective P M rs x <= pd_objective P M rs y + C / sqrt (INR it).
Proof.
  intros Hop Hregs Hok Hkind Hlim Hbx Hbm Hsteps Htol Hsol.
  exists (2 * Rmax 0 (rate P M rs l s)). split; [pose proof (Rmax_l 0 (rate P M rs l s)); lra|].
  intros it Hit. cbv zeta.
  destruct (pdhg_char P l it) as (K & HK & _ & E & _ & HB).
  assert (K = it).
  { destruct HB as [[_ B]|[B _]]; [|exact B]. exfalso. rewrite Htol in B. unfold below_tol in B. rewrite Bool.andb_false_r in B. discriminate. }
  subst K. rewrite E. destruct it as [|[|k]]; try lia. split.
  - apply (run_feas P M rs l Hop Hregs Hlim (S k)).
  - intros y Hy. pose proof (run_rate P M rs l Hop Hregs Hok Hkind Hlim Hbx Hbm Hsteps s k Hsol) as R.
    pose proof (proj2 (C33_solution_minimises P M rs Hok Hbm s Hsol) y Hy) as Hm.
    assert (Hr : rate P M rs l s / sqrt (INR (S k)) <= 2 * Rmax 0 (rate P M rs l s) / sqrt (INR (S (S k)))).
    { assert (P1 : 0 < sqrt (INR (S k))) by (apply sqrt_lt_R0, lt_0_INR; lia). assert (P2 : 0 < sqrt (INR (S (S k)))) by (apply sqrt_lt_R0, lt_0_INR; lia).
      assert (L : sqrt (INR (S (S k))) <= 2 * sqrt (INR (S k))).
      { replace (2 * sqrt (INR (S k))) with (sqrt (2 ^ 2) * sqrt (INR (S k))) by (rewrite sqrt_pow2 by lra; reflexivity). rewrite <- sqrt_mult_alt by lra. apply sqrt_le_1_alt. rewrite !S_INR. pose proof (pos_INR k). lra. }
      set (a := sqrt (INR (S k))) in *. set (b := sqrt (INR (S (S k)))) in *. pose proof (Rmax_l 0 (rate P M rs l s)). pose proof (Rmax_r 0 (rate P M rs l s)).
      set (C := Rmax 0 (rate P M rs l s)) in *. apply Rle_trans with (C / a).
      - apply Rmult_le_compat_r; [left; apply Rinv_0_lt_compat; exact P1|assumption].
      - apply Rmult_le_reg_r with (a * b); [nra|]. replace (C / a * (a * b)) with (C * b) by (field; lra). replace (2 * C / b * (a * b)) with (C * (2 * a)) by (field; lra).
        apply Rmult_le_compat_l; assumption. }
    lra.
Qed.

(** * C150 *)
(** what PDHG minimises: 1/2 of the masked squared residual, plus the regularisation terms, subject to limits and mask;
    [pd_solution] (SolversOptProps.v) are the optimality conditions, equivalent to being a fixed point of the iteration (C33).
    For every problem with a solution there is a constant such that, whatever the number of iterations, the volume
    returned is within constant / sqrt(iterations) of the minimum - and of every admissible volume. *)
Theorem C150_pdhg_objective_rate : forall P M rs s,
  p_op P = mat_op (p_m P) (p_n P) M -> p_regs P = map (model_reg (p_n P)) rs ->
  Forall rs_ok rs -> Forall (rs_steps_ok (p_n P)) rs -> dt_kind (p_dterm P) = K_l2 ->
  limits_ok P -> binary_mask (p_xmask P) -> binary_mask (train_mask P) -> safe_sigma P -> safe_tau P -> 0 < p_relax P <= 1 ->
  p_tol P = None -> pd_solution P M rs s ->
  exists C, 0 <= C /\ forall it, (2 <= it)%nat ->
    let x := fst (pdhg_call P None it) in
    obeys_limits P x /\ forall y, obeys_limits P y -> pd_objective P M rs x <= pd_objective P M rs y + C / sqrt (INR it).
Proof.
  intros P M rs s Hop Hregs Hok Hst Hkind Hlim Hbx Hbm Hss Hstau Hrel Htol Hsol.
  apply (pdhg_rate_at P M rs None s); try assumption. apply diag_steps_ok; assumption.
Qed.
