(** A weighted least-squares problem with optional limits and a mask always has a solution (no boundedness assumption). *)
From Verif Require Import Sums DataTermsModel SolversModel SolversSpec SolversGeneric SolversProps SolversConv Compact PdhgConv PdhgExistProps.

(** * Cluster points of families of sets (no choice) *)
Definition pcluster (d : nat) (U : nat -> vec -> Prop) (v : vec) : Prop :=
  forall eps N, 0 < eps -> exists k u, (N <= k)%nat /\ U k u /\ forall i, (i < d)%nat -> Rabs (u i - v i) < eps.

Theorem bolzano_pred d (U : nat -> vec -> Prop) Rb : (forall k, exists u, U k u) ->
  (forall k u i, U k u -> (i < d)%nat -> Rabs (u i) <= Rb) -> exists v, pcluster d U v.
Proof.
  intros HU HB. induction d as [|d IH].
  { exists (fun _ => 0). intros eps N _. destruct (HU N) as [u Hu]. exists N, u. split; [lia|]. split; [exact Hu|]. intros i Hi. lia. }
  destruct IH as [v Hv]; [intros k u i Hu Hi; apply (HB k u i Hu); lia|].
  set (S_ := fun j (x : R) => exists k u, (j <= k)%nat /\ U k u /\ (forall i, (i < d)%nat -> Rabs (u i - v i) < / INR (S j)) /\ x = u d).
  assert (Sb : forall j, bound (S_ j)).
  { intros j. exists Rb. intros x (k & u & _ & Hu & _ & ->). eapply Rle_trans; [apply Rle_abs|apply (HB k u d Hu); lia]. }
  assert (Sn : forall j, exists x, S_ j x).
  { intros j. destruct (Hv (/ INR (S j)) j (inv_S_pos j)) as (k & u & Hk & Hu & Hi). exists (u d). exists k, u. auto. }
  set (s := fun j => proj1_sig (completeness (S_ j) (Sb j) (Sn j))).
  assert (Hs : forall j, is_lub (S_ j) (s j)) by (intros j; unfold s; apply proj2_sig).
  assert (Smono : forall j k, (j <= k)%nat -> s k <= s j).
  { intros j k H. apply (Hs k). intros x (q & u & Hq & Hu & Hi & ->). apply (Hs j). exists q, u. split; [lia|]. split; [exact Hu|]. split; [|reflexivity].
    intros i Hi'. eapply Rlt_le_trans; [apply Hi, Hi'|]. apply inv_S_mono. exact H. }
  assert (Slow : forall j, - Rb <= s j).
  { intros j. destruct (Sn j) as [x Hx]. apply Rle_trans with x; [|apply (Hs j), Hx]. destruct Hx as (k & u & _ & Hu & _ & ->).
    pose proof (HB k u d Hu ltac:(lia)) as H. unfold Rabs in H. destruct (Rcase_abs (u d)); lra. }
  set (T := fun x => exists j, x = - s j).
  assert (Tb : bound T) by (exists Rb; intros x (j & ->); pose proof (Slow j); lra).
  destruct (completeness T Tb (ex_intro _ (- s 0%nat) (ex_intro _ 0%nat eq_refl))) as [ml Hml]. set (l := - ml).
  assert (L1 : forall j, l <= s j) by (intros j; pose proof (proj1 Hml (- s j) (ex_intro _ j eq_refl)); unfold l; lra).
  assert (L2 : forall eps, 0 < eps -> exists j, s j < l + eps).
  { intros eps He. destruct (Classical_Prop.classic (exists j, s j < l + eps)) as [H|H]; [exact H|exfalso].
    assert (ml <= ml - eps); [|lra]. apply (proj2 Hml). intros x (j & ->). assert (~ s j < l + eps) by (intros C; apply H; exists j; exact C). unfold l in *. lra. }
  exists (fun i => if Nat.eqb i d then l else v i). intros eps N He.
  destruct (L2 (eps / 2) ltac:(lra)) as [j1 Hj1]. destruct (arch_inv eps He) as [j2 Hj2]. set (j := (N + j1 + j2)%nat).
  assert (Hj : s j < l + eps / 2) by (pose proof (Smono j1 j ltac:(unfold j; lia)); lra).
  assert (HE : exists x, S_ j x /\ s j - eps / 2 < x).
  { destruct (Classical_Prop.classic (exists x, S_ j x /\ s j - eps / 2 < x)) as [H|H]; [exact H|exfalso].
    assert (s j <= s j - eps / 2); [|lra]. apply (Hs j). intros x Hx. apply Rnot_lt_le. intros C. apply H. exists x. auto. }
  destruct HE as (x & Hx & Hx1). pose proof (proj1 (Hs j) x Hx) as Hx2. destruct Hx as (k & u & Hk & Hu & Hi & ->).
  exists k, u. split; [unfold j in Hk; lia|]. split; [exact Hu|]. intros i Hi'. destruct (Nat.eqb_spec i d) as [->|Hne].
  - pose proof (L1 j). unfold Rabs. destruct (Rcase_abs _); lra.
  - eapply Rlt_trans; [apply Hi; lia|]. eapply Rle_lt_trans; [|exact Hj2]. apply inv_S_mono. unfold j. lia.
Qed.

(** passage to the limit: a bound along the family holds at the cluster point *)
Lemma pcluster_le d U v f c : pcluster d U v -> cont d f v ->
  (forall eps, 0 < eps -> exists N, forall k u, (N <= k)%nat -> U k u -> f u <= c + eps) -> f v <= c.
Proof.
  intros Hc Hf Hg. apply Rnot_lt_le. intros C. set (e := (f v - c) / 2). destruct (Hf e ltac:(unfold e; lra)) as (e1 & P & Q).
  destruct (Hg e ltac:(unfold e; lra)) as (N & HN). destruct (Hc e1 N P) as (k & u & Hk & Hu & Hi). specialize (Q _ Hi). specialize (HN k u Hk Hu).
  unfold e, Rabs in *. destruct (Rcase_abs _); lra.
Qed.
Lemma pcluster_feasible lo up xm n U v : pcluster n U v -> (forall k u, U k u -> feasible lo up xm n u) -> feasible lo up xm n v.
Proof.
  intros Hc HF j Hj. pose proof (cont_coord n j v Hj) as Cj. split.
  - destruct xm as [mk|]; [|exact I]. intros Hm. apply Rle_antisym.
    + apply (pcluster_le n U v (fun u => u j) 0 Hc Cj). intros eps He. exists 0%nat. intros k u _ Hu. rewrite (proj1 (HF k u Hu j Hj) Hm). lra.
    + cut (- v j <= 0); [lra|]. apply (pcluster_le n U v (fun u => - u j) 0 Hc).
      * apply (cont_ext n (fun u => (-1) * u j)); [intros; ring|]. apply cont_scal, Cj.
      * intros eps He. exists 0%nat. intros k u _ Hu. rewrite (proj1 (HF k u Hu j Hj) Hm). lra.
  - intros Hm. split.
    + destruct lo as [l|]; [|exact I]. cut (- v j <= - l j); [lra|]. apply (pcluster_le n U v (fun u => - u j) (- l j) Hc).
      * apply (cont_ext n (fun u => (-1) * u j)); [intros; ring|]. apply cont_scal, Cj.
      * intros eps He. exists 0%nat. intros k u _ Hu. pose proof (proj1 (proj2 (HF k u Hu j Hj) Hm)). lra.
    + destruct up as [l|]; [|exact I]. apply (pcluster_le n U v (fun u => u j) (l j) Hc Cj).
      intros eps He. exists 0%nat. intros k u _ Hu. pose proof (proj2 (proj2 (HF k u Hu j Hj) Hm)). lra.
Qed.

(** infimum of a non-negative quantity over a non-empty set *)
Lemma inf_exists (C : vec -> Prop) (f : vec -> R) : (exists x, C x) -> (forall x, C x -> 0 <= f x) ->
  exists r, 0 <= r /\ (forall x, C x -> r <= f x) /\ forall eps, 0 < eps -> exists x, C x /\ f x < r + eps.
Proof.
  intros [x0 H0] Hf. set (T := fun y => exists x, C x /\ y = - f x).
  assert (Tb : bound T) by (exists 0; intros y (x & Hx & ->); specialize (Hf x Hx); lra).
  destruct (completeness T Tb (ex_intro _ (- f x0) (ex_intro _ x0 (conj H0 eq_refl)))) as [ml Hml]. exists (- ml). split; [|split].
  - cut (ml <= 0); [lra|]. apply (proj2 Hml). intros y (x & Hx & ->). specialize (Hf x Hx). lra.
  - intros x Hx. pose proof (proj1 Hml (- f x) (ex_intro _ x (conj Hx eq_refl))). lra.
  - intros eps He. destruct (Classical_Prop.classic (exists x, C x /\ f x < - ml + eps)) as [H|H]; [exact H|exfalso].
    assert (ml <= ml - eps); [|lra]. apply (proj2 Hml). intros y (x & Hx & ->). apply Rnot_lt_le. intros L. apply H. exists x. split; [exact Hx|lra].
Qed.

(** smallest non-zero magnitude among finitely many *)
Lemma min_nonzero n (d : vec) : exists e, 0 < e <= 1 /\ forall j, (j < n)%nat -> d j <> 0 -> e <= Rabs (d j).
Proof.
  induction n as [|n (e & He & H)]; [exists 1; split; [lra|intros; lia]|].
  destruct (Req_dec (d n) 0) as [Z|Z].
  - exists e. split; [exact He|]. intros j Hj Hd. destruct (Nat.eq_dec j n) as [->|]; [contradiction|]. apply H; [lia|exact Hd].
  - exists (Rmin e (Rabs (d n))). pose proof (Rabs_pos_lt _ Z). split.
    + split; [apply Rmin_glb_lt; lra|]. eapply Rle_trans; [apply Rmin_l|lra].
    + intros j Hj Hd. destruct (Nat.eq_dec j n) as [->|]; [apply Rmin_r|]. eapply Rle_trans; [apply Rmin_l|]. apply H; [lia|exact Hd].
Qed.

Section LS.
  Variables (m n : nat) (M : mat) (w b : vec) (lo up xm : option vec).
  Hypothesis Hw : forall i, (i < m)%nat -> 0 <= w i.
  Hypothesis Hlim : lims_ok lo up n.
  Let f (x : vec) : R := wres m n M w b x.
  Let F (x : vec) : Prop := feasible lo up xm n x.
  Let nm (x : vec) : R := rsum n (fun j => x j ^ 2).

  Lemma ls_nonneg x : 0 <= f x.
  Proof. apply rsum_nonneg. intros i Hi. apply Rmult_le_pos; [apply Hw, Hi|apply pow2_ge_0]. Qed.
  Lemma nm_nonneg x : 0 <= nm x.
  Proof. apply rsum_nonneg. intros; apply pow2_ge_0. Qed.
  Lemma cont_mv i v : cont n (fun u => mv n M u i) v.
  Proof. unfold mv. apply cont_rsum. intros j Hj. apply cont_scal, cont_coord, Hj. Qed.
  Lemma cont_pow2 g v : cont n g v -> cont n (fun u => g u ^ 2) v.
  Proof. intros H. apply (cont_ext n (fun u => g u * g u)); [intros; ring|]. apply cont_mult; exact H. Qed.
  Lemma cont_ls v : cont n f v.
  Proof.
    unfold f, wres. apply (cont_rsum n m (fun i u => w i * (b i - mv n M u i) ^ 2)). intros i Hi. apply cont_scal. apply (cont_pow2 (fun u => b i - mv n M u i)).
    apply (cont_ext n (fun u => b i + (-1) * mv n M u i)); [intros; ring|]. apply cont_plus; [apply cont_const|apply cont_scal, cont_mv].
  Qed.
  Lemma cont_nm v : cont n nm v.
  Proof. unfold nm. apply (cont_rsum n n (fun j u => u j ^ 2)). intros j Hj. apply (cont_pow2 (fun u => u j)), cont_coord, Hj. Qed.

  (** moving along a direction the data do not see *)
  Lemma ls_blind x d t : (forall i, (i < m)%nat -> w i * mv n M d i ^ 2 = 0) -> f (fun j => x j + t * d j) = f x.
  Proof.
    intros H. unfold f, wres. apply rsum_ext. intros i Hi. rewrite mv_plus, mv_scal. specialize (H i Hi).
    apply Rmult_integral in H. destruct H as [->|H]; [ring|]. assert (E : mv n M d i = 0) by (apply Rsqr_0_uniq; unfold Rsqr; lra). rewrite E. f_equal. f_equal. ring.
  Qed.

  Theorem ls_minimiser_exists : exists z, minimises F f z.
  Proof.
    destruct (inf_exists F f) as (fs & F0 & Flow & Fapp).
    { exists (constrain lo up xm vzeros). apply constrain_feasible. exact Hlim. }
    { intros x _. apply ls_nonneg. }
    set (S_ := fun k (x : vec) => F x /\ f x <= fs + / INR (S k)).
    assert (Sne : forall k, exists x, S_ k x).
    { intros k. destruct (Fapp (/ INR (S k)) (inv_S_pos k)) as (x & H1 & H2). exists x. split; [exact H1|lra]. }
    assert (Finish : forall U Rb, (forall k, exists u, U k u) -> (forall k u, U k u -> S_ k u) -> (forall k u, U k u -> nm u <= Rb) -> exists z, minimises F f z).
    { intros U Rb HU HS HR. destruct (bolzano_pred n U (1 + Rb) HU) as [v Hv].
      { intros k u i Hu Hi. specialize (HR k u Hu). pose proof (rsum_term_le n (fun j => u j ^ 2) i (fun j _ => pow2_ge_0 (u j)) Hi) as T. cbv beta in T. fold (nm u) in T.
        eapply Rle_trans; [apply abs_sq_bound|]. lra. }
      exists v. split; [apply (pcluster_feasible lo up xm n U v Hv); intros k u Hu; apply (HS k u Hu)|].
      intros y Hy. apply Rle_trans with fs; [|apply Flow, Hy]. apply (pcluster_le n U v f fs Hv (cont_ls v)).
      intros eps He. destruct (arch_inv eps He) as [N HN]. exists N. intros k u Hk Hu. destruct (HS k u Hu) as [_ H2]. pose proof (inv_S_mono N k Hk). lra. }
    destruct (Classical_Prop.classic (exists Rb, forall k, exists x, S_ k x /\ nm x <= Rb)) as [[Rb HR]|HN].
    { apply (Finish (fun k x => S_ k x /\ nm x <= Rb) Rb HR); tauto. }
    exfalso.
    (* all the almost minimisers escape: shortest ones *)
    assert (Esc : forall Rb, exists N, forall k x, (N <= k)%nat -> S_ k x -> Rb < nm x).
    { intros Rb. destruct (Classical_Prop.classic (exists N, forall k x, (N <= k)%nat -> S_ k x -> Rb < nm x)) as [H|H]; [exact H|exfalso].
      apply HN. exists Rb. intros k. destruct (Classical_Prop.classic (exists x, S_ k x /\ nm x <= Rb)) as [E|E]; [exact E|exfalso].
      apply H. exists k. intros q x Hq Hx. apply Rnot_le_lt. intros L. apply E. exists x. split; [|exact L]. destruct Hx as [H1 H2]. split; [exact H1|]. pose proof (inv_S_mono k q Hq). lra. }
    set (short := fun k (x : vec) => S_ k x /\ forall y, S_ k y -> nm x <= nm y + 1).
    assert (Shne : forall k, exists x, short k x).
    { intros k. destruct (inf_exists (S_ k) nm (Sne k) (fun x _ => nm_nonneg x)) as (r & _ & Rl & Ra). destruct (Ra 1 ltac:(lra)) as (x & H1 & H2).
      exists x. split; [exact H1|]. intros y Hy. specialize (Rl y Hy). lra. }
    (* directions *)
    set (U := fun k (u : vec) => exists x, short k x /\ 0 < nm x /\ u = (fun j => x j / sqrt (nm x))).
    destruct (Esc 0) as [N0 HN0].
    assert (Une : forall k, exists u, U (k + N0)%nat u).
    { intros k. destruct (Shne (k + N0)%nat) as [x Hx]. exists (fun j => x j / sqrt (nm x)). exists x. split; [exact Hx|]. split; [|reflexivity]. apply (HN0 (k + N0)%nat); [lia|apply Hx]. }
    assert (Unit : forall k u, U k u -> nm u = 1).
    { intros k u (x & _ & P & ->). pose proof (sqrt_lt_R0 _ P) as Q. pose proof (sqrt_sqrt (nm x) ltac:(lra)) as SS. set (r := sqrt (nm x)) in *.
      assert (E : nm (fun j => x j / r) = / (r * r) * nm x) by (unfold nm; rewrite <- rsum_scal; apply rsum_ext; intros j _; field; lra). rewrite E, SS. field. lra. }
    destruct (bolzano_pred n (fun k => U (k + N0)%nat) 2 Une) as [d Hd].
    { intros k u i Hu Hi. pose proof (Unit _ u Hu) as E. pose proof (rsum_term_le n (fun j => u j ^ 2) i (fun j _ => pow2_ge_0 (u j)) Hi) as T. cbv beta in T. fold (nm u) in T.
      eapply Rle_trans; [apply abs_sq_bound|]. lra. }
    assert (D1 : nm d = 1).
    { apply Rle_antisym.
      - apply (pcluster_le n _ d nm 1 Hd (cont_nm d)). intros eps He. exists 0%nat. intros k u _ Hu. rewrite (Unit _ u Hu). lra.
      - cut (- nm d <= -1); [lra|]. apply (pcluster_le n _ d (fun u => - nm u) (-1) Hd).
        + apply (cont_ext n (fun u => (-1) * nm u)); [intros; ring|]. apply cont_scal, cont_nm.
        + intros eps He. exists 0%nat. intros k u _ Hu. rewrite (Unit _ u Hu). lra. }
    (* the data do not see d *)
    assert (Blind : forall i, (i < m)%nat -> w i * mv n M d i ^ 2 = 0).
    { intros i Hi. apply Rle_antisym; [|apply Rmult_le_pos; [apply Hw, Hi|apply pow2_ge_0]].
      apply (pcluster_le n _ d (fun u => w i * mv n M u i ^ 2) 0 Hd); [apply cont_scal, (cont_pow2 (fun u => mv n M u i)), cont_mv|].
      intros eps He. set (B := 2 * (fs + 1) + 2 * (w i * b i ^ 2)). assert (HB : 0 < B + 1) by (unfold B; pose proof (Hw i Hi); pose proof (pow2_ge_0 (b i)); nra).
      destruct (Esc ((B + 1) / eps)) as [N1 HN1]. exists N1. intros k u Hk (x & [Sx _] & P & ->).
      assert (Lx : (B + 1) / eps < nm x) by (apply (HN1 (k + N0)%nat); [lia|exact Sx]).
      assert (E : mv n M (fun j => x j / sqrt (nm x)) i = / sqrt (nm x) * mv n M x i) by (rewrite <- mv_scal; apply mv_ext; intros j _; unfold Rdiv; ring).
      pose proof (sqrt_lt_R0 _ P) as Q. pose proof (sqrt_sqrt (nm x) ltac:(lra)) as SS.
      assert (Q1 : w i * mv n M x i ^ 2 <= B).
      { destruct Sx as [_ Sx]. assert (/ INR (S (k + N0)) <= 1) by (rewrite <- Rinv_1; apply Rinv_le_contravar; [lra|]; rewrite S_INR; pose proof (pos_INR (k + N0)); lra).
        pose proof (rsum_term_le m (fun i => w i * (b i - mv n M x i) ^ 2) i (fun q Hq => Rmult_le_pos _ _ (Hw q Hq) (pow2_ge_0 _)) Hi) as T. cbv beta in T.
        fold (wres m n M w b x) in T. fold (f x) in T. pose proof (Hw i Hi) as W. unfold B.
        assert (0 <= w i * (2 * b i - mv n M x i) ^ 2) by (apply Rmult_le_pos; [exact W|apply pow2_ge_0]). nra. }
      rewrite E. replace (w i * (/ sqrt (nm x) * mv n M x i) ^ 2) with (w i * mv n M x i ^ 2 / nm x) by (transitivity (w i * mv n M x i ^ 2 / (sqrt (nm x) * sqrt (nm x))); [rewrite SS; reflexivity|set (sq := sqrt (nm x)) in *; clearbody sq; field; lra]).
      apply Rmult_le_reg_r with (nm x); [lra|]. unfold Rdiv. rewrite Rmult_assoc, Rinv_l by lra.
      assert (B + 1 < eps * nm x). { apply Rmult_lt_compat_r with (r := eps) in Lx; [|lra]. unfold Rdiv in Lx. rewrite Rmult_assoc, Rinv_l in Lx by lra. lra. }
      lra. }
    (* a short almost minimiser close to the direction d *)
    destruct (min_nonzero n d) as (e & [He He1] & Hmin).
    set (lv := fun j => match lo with Some l => Rabs (l j) | None => 0 end). set (uv := fun j => match up with Some l => Rabs (l j) | None => 0 end).
    set (K := 4 + 2 * (rsum n lv + rsum n uv) / e).
    assert (Lp : forall j, 0 <= lv j) by (intros j; unfold lv; destruct lo; [apply Rabs_pos|lra]). assert (Up : forall j, 0 <= uv j) by (intros j; unfold uv; destruct up; [apply Rabs_pos|lra]).
    assert (HK : 4 <= K). { unfold K. assert (0 <= 2 * (rsum n lv + rsum n uv) / e); [|lra]. apply Rdiv_le_0_compat; [|exact He].
      pose proof (rsum_nonneg n lv (fun j _ => Lp j)). pose proof (rsum_nonneg n uv (fun j _ => Up j)). lra. }
    destruct (Esc (K ^ 2)) as [N2 HN2].
    set (e2 := Rmin (e / 2) (/ (INR n + 1))). assert (Hn1 : 0 < INR n + 1) by (pose proof (pos_INR n); lra).
    assert (He2 : 0 < e2) by (unfold e2; apply Rmin_glb_lt; [lra|apply Rinv_0_lt_compat; lra]).
    destruct (Hd e2 N2 He2) as (k & u & Hk & Uq & Hclose). pose proof Uq as (x & [Sx Shx] & P & Eu).
    set (q := (k + N0)%nat) in *. set (r := sqrt (nm x)) in *. assert (Rp : 0 < r) by (apply sqrt_lt_R0, P). assert (RR : r * r = nm x) by (apply sqrt_sqrt; lra).
    assert (RK : K <= r). { assert (K ^ 2 < nm x) by (apply (HN2 q); [unfold q; lia|exact Sx]). rewrite <- RR in H. nra. }
    assert (Ux : forall j, x j = r * u j) by (intros j; rewrite Eu; field; lra).
    (* the shorter point *)
    set (y := fun j => x j + (-2) * d j).
    assert (Fy : F y).
    { destruct Sx as [Fx _]. intros j Hj. split.
      - destruct xm as [mk|] eqn:Exm; [|exact I]. intros Hm. unfold y.
        assert (Dj : d j = 0).
        { pose proof (pcluster_feasible None None (Some mk) n _ d Hd) as PF. assert (PF' : feasible None None (Some mk) n d).
          { apply PF. intros k' u' (x' & [[Fx' _] _] & _ & ->). intros i Hi. split; [|split; exact I]. intros Hmi. rewrite (proj1 (Fx' i Hi) Hmi). unfold Rdiv. ring. }
          apply (proj1 (PF' j Hj)), Hm. }
        rewrite (proj1 (Fx j Hj) Hm), Dj. ring.
      - intros Hm. destruct (proj2 (Fx j Hj) Hm) as [XL XU]. unfold y. specialize (Hclose j Hj). assert (Hc2 : Rabs (u j - d j) < e / 2) by (eapply Rlt_le_trans; [exact Hclose|apply Rmin_l]).
        destruct (Req_dec (d j) 0) as [Z|Z]; [rewrite Z; rewrite Rmult_0_r, Rplus_0_r; split; assumption|].
        specialize (Hmin j Hj Z). pose proof (rsum_term_le n lv j (fun i _ => Lp i) Hj) as TL. pose proof (rsum_term_le n uv j (fun i _ => Up i) Hj) as TU.
        pose proof (rsum_nonneg n lv (fun i _ => Lp i)) as SL. pose proof (rsum_nonneg n uv (fun i _ => Up i)) as SU.
        assert (KE : K * e = 4 * e + 2 * (rsum n lv + rsum n uv)) by (unfold K; field; lra).
        assert (RE : (r - 4) * e >= 2 * (rsum n lv + rsum n uv)) by nra. rewrite (Ux j) in *.
        destruct (Rlt_le_dec 0 (d j)) as [Pd|Nd].
        + rewrite (Rabs_right (d j)) in Hmin by lra. assert (Uj : d j / 2 <= u j) by (unfold Rabs in Hc2; destruct (Rcase_abs _); lra).
          assert (A : r * (d j / 2) <= r * u j) by (apply Rmult_le_compat_l; lra).
          assert (A2 : (r - 4) * e <= (r - 4) * d j) by (apply Rmult_le_compat_l; lra). split.
          * destruct lo as [l|]; [|exact I]. unfold lv in TL at 1. pose proof (Rle_abs (l j)). lra.
          * destruct up as [l|]; [|exact I]. lra.
        + assert (Nd' : d j < 0) by lra. rewrite (Rabs_left (d j)) in Hmin by lra. assert (Uj : u j <= d j / 2) by (unfold Rabs in Hc2; destruct (Rcase_abs _); lra).
          assert (A : r * u j <= r * (d j / 2)) by (apply Rmult_le_compat_l; lra).
          assert (A2 : (r - 4) * e <= (r - 4) * (- d j)) by (apply Rmult_le_compat_l; lra). split.
          * destruct lo as [l|]; [|exact I]. lra.
          * destruct up as [l|]; [|exact I]. unfold uv in TU at 1. pose proof (Rle_abs (- l j)) as Q. rewrite Rabs_Ropp in Q. lra. }
    assert (Sy : S_ q y). { split; [exact Fy|]. unfold y. rewrite (ls_blind x d (-2) Blind). apply Sx. }
    specialize (Shx y Sy).
    assert (Hy : nm y = nm x - 4 * dot n x d + 4 * nm d).
    { unfold nm, dot, y. rewrite <- !rsum_scal, <- rsum_minus, <- rsum_plus. apply rsum_ext. intros; ring. }
    assert (Hdot : r / 2 <= dot n x d).
    { assert (E : dot n x d = r * dot n u d) by (unfold dot; rewrite <- rsum_scal; apply rsum_ext; intros j _; rewrite Ux; ring). rewrite E.
      assert (Hu : / 2 <= dot n u d); [|nra].
      assert (E3 : rsum n (fun j => (u j - d j) ^ 2) = nm u - 2 * dot n u d + nm d).
      { unfold nm, dot. rewrite <- rsum_scal, <- rsum_minus, <- rsum_plus. apply rsum_ext. intros; ring. }
      assert (Nu : nm u = 1) by (apply (Unit q); exact Uq).
      rewrite Nu, D1 in E3.
      assert (E4 : rsum n (fun j => (u j - d j) ^ 2) <= 1).
      { apply Rle_trans with (INR n * / (INR n + 1)).
        - rewrite <- rsum_const. apply rsum_le. intros j Hj. specialize (Hclose j Hj). assert (C1 : Rabs (u j - d j) < / (INR n + 1)) by (eapply Rlt_le_trans; [exact Hclose|apply Rmin_r]).
          assert (C2 : Rabs (u j - d j) < 1) by (eapply Rlt_le_trans; [exact Hclose|]; eapply Rle_trans; [apply Rmin_l|lra]).
          rewrite <- pow2_abs. pose proof (Rabs_pos (u j - d j)). nra.
        - apply Rmult_le_reg_r with (INR n + 1); [lra|]. rewrite Rmult_assoc, Rinv_l by lra. lra. }
      lra. }
    rewrite D1 in Hy. nra.
  Qed.
End LS.
