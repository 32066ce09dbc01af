(** Independent specification vocabulary: minimisers, proximal maps, convex conjugates.
    Nothing here refers to the model of the code. *)
From Verif Require Import Sums.

(** A functional on [R] with an effective domain. *)
Record func := mkF { dom : R -> Prop; val : R -> R }.
Definition total (f : R -> R) : func := mkF (fun _ => True) f.

(** [p] is the proximal point of [z] for [f] with step [tau]: the unique minimiser over the
    domain of tau*f(x) + (x-z)^2/2. *)
Definition is_prox (tau : R) (f : func) (z p : R) : Prop :=
  dom f p /\
  forall x, dom f x -> x <> p ->
    tau * val f p + (p - z) ^ 2 / 2 < tau * val f x + (x - z) ^ 2 / 2.

(** [v] is the value of the convex conjugate of [f] at [y]: the least upper bound of
    x*y - f(x).  (The conjugate is +oo where there is no such [v].) *)
Definition conj_val (f : func) (y v : R) : Prop :=
  is_lub (fun r => exists x, dom f x /\ r = x * y - val f x) v.

(** [p] is the proximal point of [d] for the conjugate of [f] with step [sigma]. *)
Definition is_prox_conj (sigma : R) (f : func) (d p : R) : Prop :=
  exists v, conj_val f p v /\
  forall q w, conj_val f q w -> q <> p ->
    sigma * v + (p - d) ^ 2 / 2 < sigma * w + (q - d) ^ 2 / 2.

(** Closest point of a convex set. *)
Definition is_projection (C : R -> Prop) (z p : R) : Prop :=
  C p /\ forall q, C q -> q <> p -> (p - z) ^ 2 < (q - z) ^ 2.

(** [g] is a subgradient of [f] at [x]. *)
Definition subgrad (f : func) (x g : R) : Prop :=
  dom f x /\ forall y, dom f y -> val f x + g * (y - x) <= val f y.

Lemma sq_pos_ne a b : a <> b -> 0 < (a - b) ^ 2.
Proof. intros H. assert (a - b <> 0) by lra. apply Rsqr_pos_lt in H0. unfold Rsqr in H0. lra. Qed.

Lemma subgrad_prox tau f z p : 0 < tau -> subgrad f p ((z - p) / tau) -> is_prox tau f z p.
Proof.
  intros Ht [Hd Hs]. split; [exact Hd|]. intros x Hx Hne.
  specialize (Hs x Hx).
  assert (tau * val f p + (z - p) * (x - p) <= tau * val f x).
  { apply Rmult_le_compat_l with (r := tau) in Hs; [|lra].
    replace (tau * (val f p + (z - p) / tau * (x - p))) with (tau * val f p + (z - p) * (x - p)) in Hs
      by (field; lra). exact Hs. }
  pose proof (sq_pos_ne x p Hne). nra.
Qed.

Lemma subgrad_conj f x g : subgrad f x g -> conj_val f g (x * g - val f x).
Proof.
  intros [Hd Hs]. split.
  - intros r [y [Hy ->]]. specialize (Hs y Hy). lra.
  - intros b Hb. apply Hb. exists x. auto.
Qed.

Lemma conj_ge f x q w : dom f x -> conj_val f q w -> x * q - val f x <= w.
Proof. intros Hd [Hu _]. apply Hu. exists x; auto. Qed.

(** If p is a subgradient of f at (d-p)/sigma then p is the proximal point of d for the conjugate. *)
Lemma subgrad_prox_conj sigma f d p : 0 < sigma ->
  subgrad f ((d - p) / sigma) p -> is_prox_conj sigma f d p.
Proof.
  intros Hs Hg. set (x := (d - p) / sigma) in *.
  assert (Hx : sigma * x = d - p) by (unfold x; field; lra).
  exists (x * p - val f x). split; [apply subgrad_conj; exact Hg|].
  intros q w Hw Hne. pose proof (conj_ge f x q w (proj1 Hg) Hw) as H.
  apply Rmult_le_compat_l with (r := sigma) in H; [|lra].
  pose proof (sq_pos_ne q p Hne). nra.
Qed.

Lemma is_prox_unique tau f z p p' : is_prox tau f z p -> is_prox tau f z p' -> p = p'.
Proof.
  intros [D1 H1] [D2 H2]. destruct (Req_dec p p') as [E|E]; [exact E|].
  specialize (H1 p' D2 (not_eq_sym E)). specialize (H2 p D1 E). lra.
Qed.

Lemma conj_val_unique f y v w : conj_val f y v -> conj_val f y w -> v = w.
Proof. intros [A1 A2] [B1 B2]. apply Rle_antisym; auto. Qed.

(** Moreau's identity: the primal and the dual proximal points determine each other. *)
Lemma moreau f sigma z p : 0 < sigma ->
  subgrad f ((z - p) / sigma) p ->
  is_prox_conj sigma f z p /\ is_prox (/ sigma) f (z / sigma) ((z - p) / sigma).
Proof.
  intros Hs Hg. split; [apply subgrad_prox_conj; auto|].
  apply subgrad_prox; [apply Rinv_0_lt_compat; lra|].
  replace ((z / sigma - (z - p) / sigma) / / sigma) with p by (field; lra). exact Hg.
Qed.
