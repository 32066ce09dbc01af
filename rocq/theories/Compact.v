(** Bounded sequences of vectors have cluster points; continuity of the functions of finitely many coordinates in use. *)
From Verif Require Import Sums.

(** [v] is a cluster point of the sequence [u] in its first d coordinates *)
Definition cluster (d : nat) (u : nat -> vec) (v : vec) : Prop :=
  forall eps N, 0 < eps -> exists k, (N <= k)%nat /\ forall i, (i < d)%nat -> Rabs (u k i - v i) < eps.

Lemma inv_S_pos j : 0 < / INR (S j). Proof. apply Rinv_0_lt_compat, lt_0_INR. lia. Qed.
Lemma arch_inv eps : 0 < eps -> exists j, / INR (S j) < eps.
Proof.
  intros H. destruct (archimed_cor1 eps H) as (N & H1 & H2). exists N. eapply Rle_lt_trans; [|exact H1].
  apply Rinv_le_contravar; [apply lt_0_INR; lia|]. rewrite S_INR. lra.
Qed.
Lemma inv_S_mono j k : (j <= k)%nat -> / INR (S k) <= / INR (S j).
Proof. intros H. apply Rinv_le_contravar; [apply lt_0_INR; lia|]. apply le_INR. lia. Qed.

Theorem bolzano_vec d (u : nat -> vec) Rb : (forall k i, (i < d)%nat -> Rabs (u k i) <= Rb) -> exists v, cluster d u v.
Proof.
  intros HB. induction d as [|d IH].
  { exists (fun _ => 0). intros eps N _. exists N. split; [lia|]. intros i Hi. lia. }
  destruct IH as [v Hv]; [intros k i Hi; apply HB; lia|].
  (* values of coordinate d along indices >= j whose first coordinates are within 1/(j+1) of v *)
  set (S_ := fun j (x : R) => exists k, (j <= k)%nat /\ (forall i, (i < d)%nat -> Rabs (u k i - v i) < / INR (S j)) /\ x = u k d).
  assert (Sb : forall j, bound (S_ j)).
  { intros j. exists Rb. intros x (k & _ & _ & ->). eapply Rle_trans; [apply Rle_abs|apply HB; lia]. }
  assert (Sn : forall j, exists x, S_ j x).
  { intros j. destruct (Hv (/ INR (S j)) j (inv_S_pos j)) as (k & Hk & Hi). exists (u k d). exists k. auto. }
  set (s := fun j => proj1_sig (completeness (S_ j) (Sb j) (Sn j))).
  assert (Hs : forall j, is_lub (S_ j) (s j)) by (intros j; unfold s; apply proj2_sig).
  assert (Smono : forall j k, (j <= k)%nat -> s k <= s j).
  { intros j k H. apply (Hs k). intros x (q & Hq & Hi & ->). apply (Hs j). exists q. split; [lia|]. split; [|reflexivity].
    intros i Hi'. eapply Rlt_le_trans; [apply Hi, Hi'|]. apply inv_S_mono. exact H. }
  assert (Slow : forall j, - Rb <= s j).
  { intros j. destruct (Sn j) as [x Hx]. apply Rle_trans with x; [|apply (Hs j), Hx]. destruct Hx as (k & _ & _ & ->).
    pose proof (HB k d ltac:(lia)) as H. unfold Rabs in H. destruct (Rcase_abs (u k d)); lra. }
  (* the infimum of s *)
  set (T := fun x => exists j, x = - s j).
  assert (Tb : bound T) by (exists Rb; intros x (j & ->); pose proof (Slow j); lra).
  destruct (completeness T Tb (ex_intro _ (- s 0%nat) (ex_intro _ 0%nat eq_refl))) as [ml Hml]. set (l := - ml).
  assert (L1 : forall j, l <= s j) by (intros j; pose proof (proj1 Hml (- s j) (ex_intro _ j eq_refl)); unfold l; lra).
  assert (L2 : forall eps, 0 < eps -> exists j, s j < l + eps).
  { intros eps He. destruct (Classical_Prop.classic (exists j, s j < l + eps)) as [H|H]; [exact H|exfalso].
    assert (ml <= ml - eps); [|lra]. apply (proj2 Hml). intros x (j & ->). assert (~ s j < l + eps) by (intros C; apply H; exists j; exact C). unfold l in *. lra. }
  exists (fun i => if Nat.eqb i d then l else v i). intros eps N He.
  destruct (L2 (eps / 2) ltac:(lra)) as [j1 Hj1]. destruct (arch_inv eps He) as [j2 Hj2]. set (j := (N + j1 + j2)%nat).
  assert (Hj : s j < l + eps / 2) by (pose proof (Smono j1 j ltac:(unfold j; lia)); lra).
  assert (HE : exists x, S_ j x /\ s j - eps / 2 < x).
  { destruct (Classical_Prop.classic (exists x, S_ j x /\ s j - eps / 2 < x)) as [H|H]; [exact H|exfalso].
    assert (s j <= s j - eps / 2); [|lra]. apply (Hs j). intros x Hx. apply Rnot_lt_le. intros C. apply H. exists x. auto. }
  destruct HE as (x & Hx & Hx1). pose proof (proj1 (Hs j) x Hx) as Hx2. destruct Hx as (k & Hk & Hi & ->).
  exists k. split; [unfold j in Hk; lia|]. intros i Hi'. destruct (Nat.eqb_spec i d) as [->|Hne].
  - pose proof (L1 j). unfold Rabs. destruct (Rcase_abs _); lra.
  - eapply Rlt_trans; [apply Hi; lia|]. eapply Rle_lt_trans; [|exact Hj2]. apply inv_S_mono. unfold j. lia.
Qed.

(** * Continuity at a point, in the first d coordinates *)
Definition cont (d : nat) (f : vec -> R) (v : vec) : Prop :=
  forall eta, 0 < eta -> exists eps, 0 < eps /\ forall u, (forall i, (i < d)%nat -> Rabs (u i - v i) < eps) -> Rabs (f u - f v) < eta.
Lemma cont_const d c v : cont d (fun _ => c) v.
Proof. intros eta H. exists 1. split; [lra|]. intros u _. rewrite Rminus_eq_0, Rabs_R0. exact H. Qed.
Lemma cont_coord d i v : (i < d)%nat -> cont d (fun u => u i) v.
Proof. intros Hi eta H. exists eta. split; [exact H|]. intros u Hu. apply Hu, Hi. Qed.
Lemma cont_plus d f g v : cont d f v -> cont d g v -> cont d (fun u => f u + g u) v.
Proof.
  intros Hf Hg eta H. destruct (Hf (eta / 2) ltac:(lra)) as (e1 & P1 & Q1). destruct (Hg (eta / 2) ltac:(lra)) as (e2 & P2 & Q2).
  exists (Rmin e1 e2). split; [apply Rmin_glb_lt; assumption|]. intros u Hu.
  assert (H1 : Rabs (f u - f v) < eta / 2) by (apply Q1; intros i Hi; eapply Rlt_le_trans; [apply Hu, Hi|apply Rmin_l]).
  assert (H2 : Rabs (g u - g v) < eta / 2) by (apply Q2; intros i Hi; eapply Rlt_le_trans; [apply Hu, Hi|apply Rmin_r]).
  replace (f u + g u - (f v + g v)) with ((f u - f v) + (g u - g v)) by ring. eapply Rle_lt_trans; [apply Rabs_triang|]. lra.
Qed.
Lemma cont_mult d f g v : cont d f v -> cont d g v -> cont d (fun u => f u * g u) v.
Proof.
  intros Hf Hg eta H. set (A := Rabs (f v) + Rabs (g v) + 1).
  assert (HA : 1 <= A) by (unfold A; pose proof (Rabs_pos (f v)); pose proof (Rabs_pos (g v)); lra).
  set (e := Rmin 1 (eta / (2 * A))). assert (He0 : 0 < eta / (2 * A)) by (apply Rdiv_lt_0_compat; lra).
  assert (He : 0 < e) by (unfold e; apply Rmin_glb_lt; lra). assert (He1 : e <= 1) by apply Rmin_l. assert (He2 : e <= eta / (2 * A)) by apply Rmin_r.
  destruct (Hf e He) as (e1 & P1 & Q1). destruct (Hg e He) as (e2 & P2 & Q2).
  exists (Rmin e1 e2). split; [apply Rmin_glb_lt; assumption|]. intros u Hu.
  assert (H1 : Rabs (f u - f v) < e) by (apply Q1; intros i Hi; eapply Rlt_le_trans; [apply Hu, Hi|apply Rmin_l]).
  assert (H2 : Rabs (g u - g v) < e) by (apply Q2; intros i Hi; eapply Rlt_le_trans; [apply Hu, Hi|apply Rmin_r]).
  replace (f u * g u - f v * g v) with ((f u - f v) * (g u - g v) + (f v * (g u - g v) + g v * (f u - f v))) by ring.
  eapply Rle_lt_trans; [apply Rabs_triang|]. eapply Rle_lt_trans; [apply Rplus_le_compat_l, Rabs_triang|]. rewrite !Rabs_mult.
  pose proof (Rabs_pos (f u - f v)). pose proof (Rabs_pos (g u - g v)). pose proof (Rabs_pos (f v)). pose proof (Rabs_pos (g v)).
  assert (T1 : Rabs (f u - f v) * Rabs (g u - g v) <= e * 1) by (apply Rmult_le_compat; lra).
  assert (T2 : Rabs (f v) * Rabs (g u - g v) <= Rabs (f v) * e) by (apply Rmult_le_compat_l; lra).
  assert (T3 : Rabs (g v) * Rabs (f u - f v) <= Rabs (g v) * e) by (apply Rmult_le_compat_l; lra).
  assert (T4 : e * A <= eta / 2).
  { apply Rle_trans with (eta / (2 * A) * A); [apply Rmult_le_compat_r; lra|]. right. field. lra. }
  unfold A in T4. lra.
Qed.
Lemma cont_ext d f g v : (forall u, f u = g u) -> cont d f v -> cont d g v.
Proof. intros E H eta He. destruct (H eta He) as (e & P & Q). exists e. split; [exact P|]. intros u Hu. rewrite <- !E. auto. Qed.
Lemma cont_rsum d n (f : nat -> vec -> R) v : (forall i, (i < n)%nat -> cont d (f i) v) -> cont d (fun u => rsum n (fun i => f i u)) v.
Proof.
  induction n as [|n IH]; intros H; [apply (cont_const d 0)|]. cbn [rsum]. apply cont_plus; [apply IH; intros; apply H; lia|apply H; lia].
Qed.
Lemma cont_scal d c f v : cont d f v -> cont d (fun u => c * f u) v.
Proof. intros H. apply cont_mult; [apply cont_const|exact H]. Qed.
(** passage to the limit *)
Lemma cluster_le d u v f (g : nat -> R) : cluster d u v -> cont d f v ->
  (forall eps, 0 < eps -> exists N, forall k, (N <= k)%nat -> g k < eps) -> (forall k, f (u k) <= g k) -> f v <= 0.
Proof.
  intros Hc Hf Hg Hle. apply Rnot_lt_le. intros C. destruct (Hf (f v / 2) ltac:(lra)) as (e & P & Q). destruct (Hg (f v / 2) ltac:(lra)) as (N & HN).
  destruct (Hc e N P) as (k & Hk & Hi). specialize (Q _ Hi). specialize (Hle k). specialize (HN k Hk).
  unfold Rabs in Q. destruct (Rcase_abs _); lra.
Qed.
Lemma cluster_le0 d u v f : cluster d u v -> cont d f v -> (forall k, f (u k) <= 0) -> f v <= 0.
Proof.
  intros Hc Hf Hle. apply (cluster_le d u v f (fun _ => 0)); auto. intros eps He. exists 0%nat. intros; exact He.
Qed.
