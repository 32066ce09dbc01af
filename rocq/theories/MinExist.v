(** Existence of minimisers over box limits, for functions that are bounded below, lower semicontinuous, do not see some
    directions of the volume space, and bound all the linear forms they do see. *)
From Verif Require Import Sums SolversModel SolversSpec SolversGeneric SolversConv Compact PdhgConv PdhgExistProps LsExist.

Section ME.
  Variables (m n : nat) (K : mat) (f : vec -> R) (Ef : vec -> Prop) (lo up xm : option vec) (f0 : R).
  Hypothesis Hlow : forall x, feasible lo up xm n x -> Ef x -> f0 <= f x.
  Hypothesis Hne : exists x, feasible lo up xm n x /\ Ef x.
  Hypothesis Hblind : forall x d t, (forall i, (i < m)%nat -> mv n K d i = 0) -> Ef x -> Ef (fun j => x j + t * d j) /\ f (fun j => x j + t * d j) = f x.
  Hypothesis Hsees : forall B, exists C, 0 <= C /\ forall x, feasible lo up xm n x -> Ef x -> f x <= B -> forall i, (i < m)%nat -> Rabs (mv n K x i) <= C.
  Hypothesis Hlsc : forall U v c, pcluster n U v -> (forall k u, U k u -> feasible lo up xm n u /\ Ef u /\ f u <= c + / INR (S k)) -> Ef v /\ f v <= c.
  Let F (x : vec) : Prop := feasible lo up xm n x /\ Ef x.
  Let nm (x : vec) : R := rsum n (fun j => x j ^ 2).
  Lemma me_nm_nonneg x : 0 <= nm x.
  Proof. apply rsum_nonneg. intros; apply pow2_ge_0. Qed.
  Lemma me_cont_pow2 g v : cont n g v -> cont n (fun u => g u ^ 2) v.
  Proof. intros H. apply (cont_ext n (fun u => g u * g u)); [intros; ring|]. apply cont_mult; exact H. Qed.
  Lemma me_cont_nm v : cont n nm v.
  Proof. unfold nm. apply (cont_rsum n n (fun j u => u j ^ 2)). intros j Hj. apply (me_cont_pow2 (fun u => u j)), cont_coord, Hj. Qed.
  Theorem minimiser_exists : exists z, minimises F f z.
  Proof.
    destruct (inf_exists F (fun x => f x - f0)) as (fs' & F0 & Flow' & Fapp').
    { exact Hne. }
    { intros x [H1 H2]. specialize (Hlow x H1 H2). lra. }
    set (fs := fs' + f0).
    assert (Flow : forall x, F x -> fs <= f x) by (intros x Hx; specialize (Flow' x Hx); unfold fs; lra).
    assert (Fapp : forall eps, 0 < eps -> exists x, F x /\ f x < fs + eps) by (intros eps He; destruct (Fapp' eps He) as (x & H1 & H2); exists x; split; [exact H1|unfold fs; lra]).
    set (S_ := fun k (x : vec) => F x /\ f x <= fs + / INR (S k)).
    assert (Sne : forall k, exists x, S_ k x).
    { intros k. destruct (Fapp (/ INR (S k)) (inv_S_pos k)) as (x & H1 & H2). exists x. split; [exact H1|lra]. }
    assert (Finish : forall U Rb, (forall k, exists u, U k u) -> (forall k u, U k u -> S_ k u) -> (forall k u, U k u -> nm u <= Rb) -> exists z, minimises F f z).
    { intros U Rb HU HS HR. destruct (bolzano_pred n U (1 + Rb) HU) as [v Hv].
      { intros k u i Hu Hi. specialize (HR k u Hu). pose proof (rsum_term_le n (fun j => u j ^ 2) i (fun j _ => pow2_ge_0 (u j)) Hi) as T. cbv beta in T. fold (nm u) in T.
        eapply Rle_trans; [apply abs_sq_bound|]. lra. }
      destruct (Hlsc U v fs Hv) as [Ev Lv]; [intros k u Hu; destruct (HS k u Hu) as [[A B] C]; auto|].
      exists v. split; [split; [apply (pcluster_feasible lo up xm n U v Hv); intros k u Hu; apply (HS k u Hu)|exact Ev]|].
      intros y Hy. apply Rle_trans with fs; [exact Lv|apply Flow, Hy]. }
    destruct (Classical_Prop.classic (exists Rb, forall k, exists x, S_ k x /\ nm x <= Rb)) as [[Rb HR]|HN].
    { apply (Finish (fun k x => S_ k x /\ nm x <= Rb) Rb HR); tauto. }
    exfalso.
    (* all the almost minimisers escape: shortest ones *)
    assert (Esc : forall Rb, exists N, forall k x, (N <= k)%nat -> S_ k x -> Rb < nm x).
    { intros Rb. destruct (Classical_Prop.classic (exists N, forall k x, (N <= k)%nat -> S_ k x -> Rb < nm x)) as [H|H]; [exact H|exfalso].
      apply HN. exists Rb. intros k. destruct (Classical_Prop.classic (exists x, S_ k x /\ nm x <= Rb)) as [E|E]; [exact E|exfalso].
      apply H. exists k. intros q x Hq Hx. apply Rnot_le_lt. intros L. apply E. exists x. split; [|exact L]. destruct Hx as [H1 H2]. split; [exact H1|]. pose proof (inv_S_mono k q Hq). lra. }
    set (short := fun k (x : vec) => S_ k x /\ forall y, S_ k y -> nm x <= nm y + 1).
    assert (Shne : forall k, exists x, short k x).
    { intros k. destruct (inf_exists (S_ k) nm (Sne k) (fun x _ => me_nm_nonneg x)) as (r & _ & Rl & Ra). destruct (Ra 1 ltac:(lra)) as (x & H1 & H2).
      exists x. split; [exact H1|]. intros y Hy. specialize (Rl y Hy). lra. }
    (* directions *)
    set (U := fun k (u : vec) => exists x, short k x /\ 0 < nm x /\ u = (fun j => x j / sqrt (nm x))).
    destruct (Esc 0) as [N0 HN0].
    assert (Une : forall k, exists u, U (k + N0)%nat u).
    { intros k. destruct (Shne (k + N0)%nat) as [x Hx]. exists (fun j => x j / sqrt (nm x)). exists x. split; [exact Hx|]. split; [|reflexivity]. apply (HN0 (k + N0)%nat); [lia|apply Hx]. }
    assert (Unit : forall k u, U k u -> nm u = 1).
    { intros k u (x & _ & P & ->). pose proof (sqrt_lt_R0 _ P) as Q. pose proof (sqrt_sqrt (nm x) ltac:(lra)) as SS. set (r := sqrt (nm x)) in *.
      assert (E : nm (fun j => x j / r) = / (r * r) * nm x) by (unfold nm; rewrite <- rsum_scal; apply rsum_ext; intros j _; field; lra). rewrite E, SS. field. lra. }
    destruct (bolzano_pred n (fun k => U (k + N0)%nat) 2 Une) as [d Hd].
    { intros k u i Hu Hi. pose proof (Unit _ u Hu) as E. pose proof (rsum_term_le n (fun j => u j ^ 2) i (fun j _ => pow2_ge_0 (u j)) Hi) as T. cbv beta in T. fold (nm u) in T.
      eapply Rle_trans; [apply abs_sq_bound|]. lra. }
    assert (D1 : nm d = 1).
    { apply Rle_antisym.
      - apply (pcluster_le n _ d nm 1 Hd (me_cont_nm d)). intros eps He. exists 0%nat. intros k u _ Hu. rewrite (Unit _ u Hu). lra.
      - cut (- nm d <= -1); [lra|]. apply (pcluster_le n _ d (fun u => - nm u) (-1) Hd).
        + apply (cont_ext n (fun u => (-1) * nm u)); [intros; ring|]. apply cont_scal, me_cont_nm.
        + intros eps He. exists 0%nat. intros k u _ Hu. rewrite (Unit _ u Hu). lra. }
    (* the data do not see d *)
    assert (Blind : forall i, (i < m)%nat -> mv n K d i = 0).
    { intros i Hi. cut (mv n K d i ^ 2 <= 0); [intros Q; apply Rsqr_0_uniq; unfold Rsqr; pose proof (pow2_ge_0 (mv n K d i)); lra|].
      apply (pcluster_le n _ d (fun u => mv n K u i ^ 2) 0 Hd); [apply (me_cont_pow2 (fun u => mv n K u i)), cont_mv|].
      destruct (Hsees (fs + 1)) as (C & C0 & HC).
      intros eps He. destruct (Esc ((C ^ 2 + 1) / eps)) as [N1 HN1]. exists N1. intros k u Hk (x & [Sx _] & P & ->).
      assert (Lx : (C ^ 2 + 1) / eps < nm x) by (apply (HN1 (k + N0)%nat); [lia|exact Sx]).
      assert (E1 : mv n K (fun j => x j / sqrt (nm x)) i = / sqrt (nm x) * mv n K x i) by (rewrite <- mv_scal; apply mv_ext; intros j _; unfold Rdiv; ring).
      pose proof (sqrt_lt_R0 _ P) as Q. pose proof (sqrt_sqrt (nm x) ltac:(lra)) as SS.
      assert (Q1 : mv n K x i ^ 2 <= C ^ 2).
      { destruct Sx as [[Sx1 Sx2] Sx]. assert (/ INR (S (k + N0)) <= 1) by (rewrite <- Rinv_1; apply Rinv_le_contravar; [lra|]; rewrite S_INR; pose proof (pos_INR (k + N0)); lra).
        rewrite <- (pow2_abs (mv n K x i)). apply pow_incr. split; [apply Rabs_pos|]. apply (HC x Sx1 Sx2 ltac:(lra) i Hi). }
      rewrite E1. replace ((/ sqrt (nm x) * mv n K x i) ^ 2) with (mv n K x i ^ 2 / nm x) by (transitivity (mv n K x i ^ 2 / (sqrt (nm x) * sqrt (nm x))); [rewrite SS; reflexivity|set (sq := sqrt (nm x)) in *; clearbody sq; field; lra]).
      apply Rmult_le_reg_r with (nm x); [lra|]. unfold Rdiv. rewrite Rmult_assoc, Rinv_l by lra.
      assert (C ^ 2 + 1 < eps * nm x). { apply Rmult_lt_compat_r with (r := eps) in Lx; [|lra]. unfold Rdiv in Lx. rewrite Rmult_assoc, Rinv_l in Lx by lra. lra. }
      lra. }
    (* a short almost minimiser close to the direction d *)
    destruct (min_nonzero n d) as (e & [He He1] & Hmin).
    set (lv := fun j => match lo with Some l => Rabs (l j) | None => 0 end). set (uv := fun j => match up with Some l => Rabs (l j) | None => 0 end).
    set (KK := 4 + 2 * (rsum n lv + rsum n uv) / e).
    assert (Lp : forall j, 0 <= lv j) by (intros j; unfold lv; destruct lo; [apply Rabs_pos|lra]). assert (Up : forall j, 0 <= uv j) by (intros j; unfold uv; destruct up; [apply Rabs_pos|lra]).
    assert (HK : 4 <= KK). { unfold KK. assert (0 <= 2 * (rsum n lv + rsum n uv) / e); [|lra]. apply Rdiv_le_0_compat; [|exact He].
      pose proof (rsum_nonneg n lv (fun j _ => Lp j)). pose proof (rsum_nonneg n uv (fun j _ => Up j)). lra. }
    destruct (Esc (KK ^ 2)) as [N2 HN2].
    set (e2 := Rmin (e / 2) (/ (INR n + 1))). assert (Hn1 : 0 < INR n + 1) by (pose proof (pos_INR n); lra).
    assert (He2 : 0 < e2) by (unfold e2; apply Rmin_glb_lt; [lra|apply Rinv_0_lt_compat; lra]).
    destruct (Hd e2 N2 He2) as (k & u & Hk & Uq & Hclose). pose proof Uq as (x & [Sx Shx] & P & Eu).
    set (q := (k + N0)%nat) in *. set (r := sqrt (nm x)) in *. assert (Rp : 0 < r) by (apply sqrt_lt_R0, P). assert (RR : r * r = nm x) by (apply sqrt_sqrt; lra).
    assert (RK : KK <= r). { assert (KK ^ 2 < nm x) by (apply (HN2 q); [unfold q; lia|exact Sx]). rewrite <- RR in H. nra. }
    assert (Ux : forall j, x j = r * u j) by (intros j; rewrite Eu; field; lra).
    (* the shorter point *)
    set (y := fun j => x j + (-2) * d j).
    assert (Fy0 : feasible lo up xm n y).
    { destruct Sx as [[Fx _] _]. intros j Hj. split.
      - destruct xm as [mk|] eqn:Exm; [|exact I]. intros Hm. unfold y.
        assert (Dj : d j = 0).
        { pose proof (pcluster_feasible None None (Some mk) n _ d Hd) as PF. assert (PF' : feasible None None (Some mk) n d).
          { apply PF. intros k' u' (x' & [[[Fx' _] _] _] & _ & ->). intros i Hi. split; [|split; exact I]. intros Hmi. rewrite (proj1 (Fx' i Hi) Hmi). unfold Rdiv. ring. }
          apply (proj1 (PF' j Hj)), Hm. }
        rewrite (proj1 (Fx j Hj) Hm), Dj. ring.
      - intros Hm. destruct (proj2 (Fx j Hj) Hm) as [XL XU]. unfold y. specialize (Hclose j Hj). assert (Hc2 : Rabs (u j - d j) < e / 2) by (eapply Rlt_le_trans; [exact Hclose|apply Rmin_l]).
        destruct (Req_dec (d j) 0) as [Z|Z]; [rewrite Z; rewrite Rmult_0_r, Rplus_0_r; split; assumption|].
        specialize (Hmin j Hj Z). pose proof (rsum_term_le n lv j (fun i _ => Lp i) Hj) as TL. pose proof (rsum_term_le n uv j (fun i _ => Up i) Hj) as TU.
        pose proof (rsum_nonneg n lv (fun i _ => Lp i)) as SL. pose proof (rsum_nonneg n uv (fun i _ => Up i)) as SU.
        assert (KE : KK * e = 4 * e + 2 * (rsum n lv + rsum n uv)) by (unfold KK; field; lra).
        assert (RE : (r - 4) * e >= 2 * (rsum n lv + rsum n uv)) by nra. rewrite (Ux j) in *.
        destruct (Rlt_le_dec 0 (d j)) as [Pd|Nd].
        + rewrite (Rabs_right (d j)) in Hmin by lra. assert (Uj : d j / 2 <= u j) by (unfold Rabs in Hc2; destruct (Rcase_abs _); lra).
          assert (A : r * (d j / 2) <= r * u j) by (apply Rmult_le_compat_l; lra).
          assert (A2 : (r - 4) * e <= (r - 4) * d j) by (apply Rmult_le_compat_l; lra). split.
          * destruct lo as [l|]; [|exact I]. unfold lv in TL at 1. pose proof (Rle_abs (l j)). lra.
          * destruct up as [l|]; [|exact I]. lra.
        + assert (Nd' : d j < 0) by lra. rewrite (Rabs_left (d j)) in Hmin by lra. assert (Uj : u j <= d j / 2) by (unfold Rabs in Hc2; destruct (Rcase_abs _); lra).
          assert (A : r * u j <= r * (d j / 2)) by (apply Rmult_le_compat_l; lra).
          assert (A2 : (r - 4) * e <= (r - 4) * (- d j)) by (apply Rmult_le_compat_l; lra). split.
          * destruct lo as [l|]; [|exact I]. lra.
          * destruct up as [l|]; [|exact I]. unfold uv in TU at 1. pose proof (Rle_abs (- l j)) as Q. rewrite Rabs_Ropp in Q. lra. }
    assert (Sy : S_ q y).
    { destruct Sx as [[_ Ex] Sx]. destruct (Hblind x d (-2) Blind Ex) as [B1 B2]. split; [split; [exact Fy0|exact B1]|]. unfold y. rewrite B2. exact Sx. }
    specialize (Shx y Sy).
    assert (Hy : nm y = nm x - 4 * dot n x d + 4 * nm d).
    { unfold nm, dot, y. rewrite <- !rsum_scal, <- rsum_minus, <- rsum_plus. apply rsum_ext. intros; ring. }
    assert (Hdot : r / 2 <= dot n x d).
    { assert (E : dot n x d = r * dot n u d) by (unfold dot; rewrite <- rsum_scal; apply rsum_ext; intros j _; rewrite Ux; ring). rewrite E.
      assert (Hu : / 2 <= dot n u d); [|nra].
      assert (E3 : rsum n (fun j => (u j - d j) ^ 2) = nm u - 2 * dot n u d + nm d).
      { unfold nm, dot. rewrite <- rsum_scal, <- rsum_minus, <- rsum_plus. apply rsum_ext. intros; ring. }
      assert (Nu : nm u = 1) by (apply (Unit q); exact Uq).
      rewrite Nu, D1 in E3.
      assert (E4 : rsum n (fun j => (u j - d j) ^ 2) <= 1).
      { apply Rle_trans with (INR n * / (INR n + 1)).
        - rewrite <- rsum_const. apply rsum_le. intros j Hj. specialize (Hclose j Hj). assert (C1 : Rabs (u j - d j) < / (INR n + 1)) by (eapply Rlt_le_trans; [exact Hclose|apply Rmin_r]).
          assert (C2 : Rabs (u j - d j) < 1) by (eapply Rlt_le_trans; [exact Hclose|]; eapply Rle_trans; [apply Rmin_l|lra]).
          rewrite <- pow2_abs. pose proof (Rabs_pos (u j - d j)). nra.
        - apply Rmult_le_reg_r with (INR n + 1); [lra|]. rewrite Rmult_assoc, Rinv_l by lra. lra. }
      lra. }
    rewrite D1 in Hy. nra.
  Qed.
End ME.
