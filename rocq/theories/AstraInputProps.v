(** Input checks and output shapes of the ASTRA backends (C214), sampling options (C215). *)
From Coq Require Import Reals Lra Lia List ZArith Bool.
Import ListNotations.
From Verif Require Import Sums PyErr Arrays Rounding ProjectorsModel ConeBeamModel AstraInputModel.
Open Scope R_scope.

(** * Specification *)
(** all axes of the set-up have at least one element *)
Definition positive (g : setup) : Prop := Forall (fun n => (1 <= n)%nat) (vol_shape g ++ prj_shape_vwu g).
Definition accepted {X} (r : py_err + X) : Prop := exists y, r = inr y.
(** a single-angle call is possible *)
Definition available (angle : option nat) (ind : bool) : Prop := angle = None \/ ind = true.

(** * helper lemmas *)
Lemma check_data_ok : forall x e, size (nd_shape x) = size e -> check_data x e = inr (mkNd e (nd_data x)).
Proof. intros x e H. unfold check_data. rewrite H, Nat.eqb_refl. reflexivity. Qed.
Lemma check_data_bad : forall x e, size (nd_shape x) <> size e -> check_data x e = inl ValueError.
Proof. intros x e H. unfold check_data. apply Nat.eqb_neq in H. rewrite H. reflexivity. Qed.
Lemma size_astra_vol g : size (astra_vol_shape g) = size (vol_shape g).
Proof. destruct g; cbn; lia. Qed.
Lemma check_data_inv : forall x e y, check_data x e = inr y -> size (nd_shape x) = size e.
Proof. intros x e y H. unfold check_data in H. destruct (Nat.eqb_spec (size (nd_shape x)) (size e)); [assumption|discriminate]. Qed.

(** * C214 *)
(** the volume in its own shape goes to the toolbox element by element, whatever the interface *)
Theorem C214_volume_as_is : forall i g ind A vol angle, nd_shape vol = vol_shape g -> available angle ind ->
  exists y, astra_fp i g ind A vol angle = inr y /\ nd_data y = A angle (nd_data vol).
Proof.
  intros i g ind A vol angle Hs Ha. destruct i; cbn [astra_fp].
  - rewrite check_data_ok by (rewrite Hs; reflexivity). destruct angle as [a|]; [destruct Ha as [Ha| ->]; [discriminate|]|];
      eexists; split; reflexivity.
  - assert (E : check_data vol (astra_vol_shape g) = inr (mkNd (astra_vol_shape g) (nd_data vol))).
    { apply check_data_ok. rewrite Hs, size_astra_vol. reflexivity. }
    rewrite E. destruct angle as [a|]; [destruct Ha as [Ha| ->]; [discriminate|]|]; eexists; split; reflexivity.
Qed.
(** a volume is accepted exactly when it has as many elements *)
Theorem C214_volume_iff_count : forall i g ind A vol angle, available angle ind ->
  (accepted (astra_fp i g ind A vol angle) <-> size (nd_shape vol) = size (vol_shape g)).
Proof.
  intros i g ind A vol angle Ha. unfold accepted. split.
  - intros [y H]. destruct i; cbn [astra_fp] in H.
    + destruct (check_data vol (vol_shape g)) as [e|x] eqn:E; [discriminate|]. eapply check_data_inv; eassumption.
    + destruct (check_data vol (astra_vol_shape g)) as [e|x] eqn:E.
      * destruct angle; [destruct ind|]; discriminate.
      * rewrite <- size_astra_vol. eapply check_data_inv; eassumption.
  - intros H. destruct i; cbn [astra_fp].
    + rewrite check_data_ok by exact H. destruct angle as [a|]; [destruct Ha as [Ha| ->]; [discriminate|]|]; eexists; reflexivity.
    + rewrite check_data_ok by (rewrite size_astra_vol; exact H).
      destruct angle as [a|]; [destruct Ha as [Ha| ->]; [discriminate|]|]; eexists; reflexivity.
Qed.
(** every refusal of a volume is a ValueError, and so is asking for one angle without single projectors *)
Theorem C214_fp_errors : forall i g ind A vol angle e, astra_fp i g ind A vol angle = inl e -> e = ValueError.
Proof.
  intros i g ind A vol angle e H. assert (C : forall x s e', check_data x s = inl e' -> e' = ValueError).
  { intros x s e' E. unfold check_data in E. destruct (_ =? _)%nat; congruence. }
  destruct i; cbn [astra_fp] in H.
  - destruct (check_data vol (vol_shape g)) eqn:E; [injection H as <-; eapply C; eassumption|].
    destruct angle; [destruct ind|]; congruence.
  - destruct (check_data vol (astra_vol_shape g)) eqn:E; destruct angle; try destruct ind; try congruence;
      injection H as <-; eapply C; eassumption.
Qed.
Theorem C214_single_needs_projectors : forall i g A vol a, astra_fp i g false A vol (Some a) = inl ValueError /\
  (forall B prj, nd_shape prj = prj_shape_vu g -> astra_bp i g false B prj (Some a) = inl ValueError).
Proof.
  intros i g A vol a. split.
  - destruct i; cbn [astra_fp]; [|reflexivity]. destruct (check_data vol (vol_shape g)) eqn:E; [|reflexivity].
    unfold check_data in E. destruct (_ =? _)%nat; congruence.
  - intros B prj H. unfold astra_bp. destruct (check_prj_shape (prj_shape_vu g) (nd_shape prj)) eqn:E; [|reflexivity].
    exfalso. rewrite H in E. unfold check_prj_shape in E.
    destruct (existsb (fun k => (length (prj_shape_vu g) <? k)%nat) _) eqn:E1.
    + apply existsb_exists in E1. destruct E1 as [k [Hk Hlt]]. apply filter_In in Hk. destruct Hk as [Hk _].
      rewrite <- in_rev in Hk. apply in_seq in Hk. apply Nat.ltb_lt in Hlt. lia.
    + destruct (existsb (fun k => negb (_ =? _)%nat) _) eqn:E2 in E; [|discriminate]. apply existsb_exists in E2. destruct E2 as [k [_ Hk]].
      rewrite Nat.eqb_refl in Hk. discriminate.
Qed.
(** REFUTED "a volume whose axes are in another order is refused": for a volume [z; n; n] an array of shape [n; n; z] is
    accepted, and its elements are read in the wrong places *)
Theorem C214_wrong_order_refuted : forall i z n v w u A, (1 < z)%nat -> (z < n)%nat ->
  let g := G3 z n n v w u in
  exists vol, nd_shape vol = [n; n; z] /\
    astra_fp i g true A vol None = astra_fp i g true A (mkNd [z; n; n] (nd_data vol)) None /\
    accepted (astra_fp i g true A vol None) /\
    elem (mkNd [z; n; n] (nd_data vol)) [0; 0; z]%nat = elem vol [0; 1; 0]%nat /\ elem vol [0; 1; 0]%nat = 1 /\ elem vol [0; 0; z - 1]%nat = 0.
Proof.
  intros i z n v w u A Hz Hn g. exists (mkNd [n; n; z] (fun k => if (k =? z)%nat then 1 else 0)).
  assert (S1 : size [n; n; z] = size [z; n; n]) by (cbn; nia).
  assert (F1 : flat [z; n; n] [0; 0; z]%nat = z) by (cbn; lia).
  assert (F2 : flat [n; n; z] [0; 1; 0]%nat = z) by (cbn; lia).
  assert (F3 : flat [n; n; z] [0; 0; z - 1]%nat = (z - 1)%nat) by (cbn; lia).
  cbn [nd_shape nd_data]. split; [reflexivity|]. split; [|split; [|split; [|split]]].
  - destruct i; cbn [astra_fp]; unfold g, vol_shape, astra_vol_shape; rewrite !check_data_ok; auto.
  - destruct i; cbn [astra_fp]; unfold g, vol_shape, astra_vol_shape; rewrite !check_data_ok by auto; eexists; reflexivity.
  - unfold elem. cbn [nd_shape nd_data]. rewrite F1, F2. reflexivity.
  - unfold elem. cbn [nd_shape nd_data]. rewrite F2, Nat.eqb_refl. reflexivity.
  - unfold elem. cbn [nd_shape nd_data]. rewrite F3. destruct (Nat.eqb_spec (z - 1) z); [lia|reflexivity].
Qed.

(** ** back-projection *)
Lemma check_inv : forall e g, check_prj_shape e g = None ->
  forall k, (1 <= k <= length e)%nat -> (1 < from_end e k)%nat -> (k <= length g)%nat /\ from_end g k = from_end e k.
Proof.
  intros e g H k Hk Hgt. unfold check_prj_shape in H.
  assert (I : In k (filter (fun k => (1 <? from_end e k)%nat) (rev (seq 1 (length e))))).
  { apply filter_In. split; [apply -> in_rev; apply in_seq; lia|apply Nat.ltb_lt; exact Hgt]. }
  destruct (existsb (fun k => (length g <? k)%nat) _) eqn:E1; [discriminate|].
  destruct (existsb (fun k => negb (_ =? _)%nat) _) eqn:E2 in H; [discriminate|]. split.
  - destruct (Nat.leb_spec k (length g)) as [L|L]; [exact L|]. exfalso.
    assert (X : true = false); [|discriminate]. rewrite <- E1. symmetry. apply existsb_exists. exists k. split; [exact I|apply Nat.ltb_lt; exact L].
  - destruct (Nat.eqb_spec (from_end g k) (from_end e k)) as [L|L]; [exact L|]. exfalso.
    assert (X : true = false); [|discriminate]. rewrite <- E2. symmetry. apply existsb_exists. exists k. split; [exact I|].
    apply Nat.eqb_neq in L. rewrite L. reflexivity.
Qed.
Lemma check_intro : forall e g,
  (forall k, (1 <= k <= length e)%nat -> (1 < from_end e k)%nat -> (k <= length g)%nat /\ from_end g k = from_end e k) ->
  check_prj_shape e g = None.
Proof.
  intros e g H. unfold check_prj_shape.
  assert (D : forall k, In k (filter (fun k => (1 <? from_end e k)%nat) (rev (seq 1 (length e)))) ->
    (k <= length g)%nat /\ from_end g k = from_end e k).
  { intros k Hk. apply filter_In in Hk. destruct Hk as [Hk Hg]. rewrite <- in_rev in Hk. apply in_seq in Hk. apply Nat.ltb_lt in Hg.
    apply H; [lia|exact Hg]. }
  destruct (existsb (fun k => (length g <? k)%nat) _) eqn:E1.
  - apply existsb_exists in E1. destruct E1 as [k [Hk Hl]]. apply Nat.ltb_lt in Hl. destruct (D k Hk). lia.
  - destruct (existsb (fun k => negb (_ =? _)%nat) _) eqn:E2; [|reflexivity]. apply existsb_exists in E2. destruct E2 as [k [Hk Hl]].
    destruct (D k Hk) as [_ Hf]. rewrite Hf, Nat.eqb_refl in Hl. discriminate.
Qed.
Lemma check_short : forall e g k, (1 <= k <= length e)%nat -> (1 < from_end e k)%nat -> (length g < k)%nat ->
  check_prj_shape e g = Some IndexError.
Proof.
  intros e g k Hk Hgt Hl. unfold check_prj_shape.
  assert (E1 : existsb (fun k => (length g <? k)%nat) (filter (fun k => (1 <? from_end e k)%nat) (rev (seq 1 (length e)))) = true).
  { apply existsb_exists. exists k. split; [|apply Nat.ltb_lt; exact Hl].
    apply filter_In. split; [apply -> in_rev; apply in_seq; lia|apply Nat.ltb_lt; exact Hgt]. }
  rewrite E1. reflexivity.
Qed.
Lemma bp_full : forall i g ind B prj, astra_bp i g ind B prj None =
  match check_prj_shape (prj_shape_vu g) (nd_shape prj) with
  | Some e => inl e
  | None => if (size (nd_shape prj) =? size (prj_shape_vwu g))%nat then inr (mkNd (vol_shape g) (B None (nd_data prj))) else inl ValueError
  end.
Proof.
  intros i g ind B prj. unfold astra_bp. destruct (check_prj_shape _ _); [reflexivity|].
  assert (S : size (astra_prj_shape g) = size (prj_shape_vwu g)) by (destruct g; cbn; lia).
  destruct i; unfold check_data; [|rewrite S]; destruct (_ =? _)%nat; reflexivity.
Qed.
Lemma bp_one : forall i g B prj a, astra_bp i g true B prj (Some a) =
  match check_prj_shape (prj_shape_vu g) (nd_shape prj) with
  | Some e => inl e
  | None => if (size (nd_shape prj) =? size (prj_shape_vu g))%nat then inr (mkNd (vol_shape g) (B (Some a) (nd_data prj))) else inl ValueError
  end.
Proof.
  intros i g B prj a. unfold astra_bp. destruct (check_prj_shape _ _); [reflexivity|].
  assert (S : size (astra_angle_prj_shape g) = size (prj_shape_vu g)) by (destruct g; cbn; lia).
  destruct i; unfold check_data; [|rewrite S]; destruct (_ =? _)%nat; reflexivity.
Qed.
Lemma check_2d : forall u s, check_prj_shape [1; u]%nat s = None <-> ((1 < u)%nat -> (1 <= length s)%nat /\ from_end s 1 = u).
Proof.
  intros u s. split.
  - intros H Hu. apply (check_inv _ _ H 1%nat); [cbn; lia|exact Hu].
  - intros H. apply check_intro. intros k Hk Hg. cbn in Hk. assert (D : k = 1%nat \/ k = 2%nat) by lia.
    destruct D as [-> | ->]; unfold from_end in *; cbn in *; [apply H; exact Hg|lia].
Qed.
Lemma check_3d : forall v u s, check_prj_shape [v; 1; u]%nat s = None <->
  ((1 < u)%nat -> (1 <= length s)%nat /\ from_end s 1 = u) /\ ((1 < v)%nat -> (3 <= length s)%nat /\ from_end s 3 = v).
Proof.
  intros v u s. split.
  - intros H. split; intros L; [apply (check_inv _ _ H 1%nat)|apply (check_inv _ _ H 3%nat)]; try (cbn; lia); exact L.
  - intros [H1 H2]. apply check_intro. intros k Hk Hg. cbn in Hk. assert (D : k = 1%nat \/ k = 2%nat \/ k = 3%nat) by lia.
    destruct D as [-> | [-> | ->]]; unfold from_end in *; cbn in *; [apply H1; exact Hg|lia|apply H2; exact Hg].
Qed.

(** the full sinogram in its own shape is accepted, reaches the toolbox unchanged, and gives a volume of the volume's shape *)
Theorem C214_sinogram_as_is : forall i g ind B prj, nd_shape prj = prj_shape_vwu g ->
  astra_bp i g ind B prj None = inr (mkNd (vol_shape g) (B None (nd_data prj))).
Proof.
  intros i g ind B prj H. rewrite bp_full, H, Nat.eqb_refl.
  destruct g as [n m w u|z n m v w u]; cbn [prj_shape_vu prj_shape_vwu].
  - rewrite (proj2 (check_2d u [w; u])); [reflexivity|]. intros _. cbn. split; [lia|reflexivity].
  - rewrite (proj2 (check_3d v u [v; w; u])); [reflexivity|]. split; intros _; cbn; (split; [lia|reflexivity]).
Qed.
(** an array of the rank of the sinogram is accepted only in the sinogram's own shape: the axes cannot be permuted *)
Theorem C214_sinogram_2d_only : forall i n m w u ind B prj a b, (1 < u)%nat -> nd_shape prj = [a; b] ->
  (accepted (astra_bp i (G2 n m w u) ind B prj None) <-> [a; b] = [w; u]).
Proof.
  intros i n m w u ind B prj a b Hu Hs. unfold accepted. rewrite bp_full, Hs. cbn [prj_shape_vu prj_shape_vwu]. split.
  - intros [y H]. destruct (check_prj_shape [1%nat; u] [a; b]) eqn:E; [discriminate|]. apply check_2d in E; [|exact Hu].
    destruct E as [_ E]. unfold from_end in E. cbn in E. subst b.
    destruct (Nat.eqb_spec (size [a; u]) (size [w; u])) as [S|S]; [|discriminate]. cbn in S. f_equal. nia.
  - intros H. injection H as -> ->. rewrite (proj2 (check_2d u [w; u])) by (intros _; cbn; split; [lia|reflexivity]).
    rewrite Nat.eqb_refl. eexists; reflexivity.
Qed.
Theorem C214_sinogram_3d_only : forall i z n m v w u ind B prj a b c, (1 < v)%nat -> (1 < u)%nat -> nd_shape prj = [a; b; c] ->
  (accepted (astra_bp i (G3 z n m v w u) ind B prj None) <-> [a; b; c] = [v; w; u]).
Proof.
  intros i z n m v w u ind B prj a b c Hv Hu Hs. unfold accepted. rewrite bp_full, Hs. cbn [prj_shape_vu prj_shape_vwu]. split.
  - intros [y H]. destruct (check_prj_shape [v; 1%nat; u] [a; b; c]) eqn:E; [discriminate|]. apply check_3d in E.
    destruct E as [E1 E3]. destruct (E1 Hu) as [_ E1']. destruct (E3 Hv) as [_ E3']. unfold from_end in *. cbn in E1', E3'. subst a c.
    destruct (Nat.eqb_spec (size [v; b; u]) (size [v; w; u])) as [S|S]; [|discriminate]. cbn in S.
    assert (b = w) by (apply (Nat.mul_cancel_l _ _ (v * u)); nia). subst. reflexivity.
  - intros H. injection H as -> -> ->. rewrite (proj2 (check_3d v u [v; w; u])) by (split; intros _; cbn; (split; [lia|reflexivity])).
    rewrite Nat.eqb_refl. eexists; reflexivity.
Qed.
(** a wrong detector width is refused with a ValueError, before anything is computed *)
Theorem C214_wrong_width : forall i g ind B prj angle b c, (1 < last (prj_shape_vwu g) 0)%nat ->
  nd_shape prj = b ++ [c] -> c <> last (prj_shape_vwu g) 0%nat -> (match g with G3 _ _ _ v _ _ => (v <= 1)%nat \/ (2 <= length b)%nat | _ => True end) ->
  astra_bp i g ind B prj angle = inl ValueError.
Proof.
  intros i g ind B prj angle b c Hu Hs Hc Hr. unfold astra_bp.
  assert (L : last (prj_shape_vwu g) 0%nat = from_end (prj_shape_vu g) 1) by (destruct g; reflexivity).
  assert (C1 : from_end (nd_shape prj) 1 = c).
  { rewrite Hs. unfold from_end. rewrite rev_app_distr. reflexivity. }
  assert (Hlen : (1 <= length (nd_shape prj))%nat) by (rewrite Hs, app_length; cbn; lia).
  destruct (check_prj_shape (prj_shape_vu g) (nd_shape prj)) as [e|] eqn:E.
  - f_equal. unfold check_prj_shape in E.
    destruct (existsb (fun k => (length (nd_shape prj) <? k)%nat) _) eqn:E1.
    + exfalso. apply existsb_exists in E1. destruct E1 as [k [Hk Hl]]. apply Nat.ltb_lt in Hl. apply filter_In in Hk.
      destruct Hk as [Hk Hg]. rewrite <- in_rev in Hk. apply in_seq in Hk. apply Nat.ltb_lt in Hg.
      rewrite Hs, app_length in Hl. cbn [length] in Hl. destruct g as [n m w u|z n m v w u]; cbn [prj_shape_vu length] in *.
      * assert (k = 2%nat) by lia. subst k. cbn in Hg. lia.
      * assert (D : k = 2%nat \/ k = 3%nat) by lia. destruct D as [-> | ->]; cbn in Hg; [lia|]. destruct Hr; lia.
    + destruct (existsb (fun k => negb (_ =? _)%nat) _) in E; congruence.
  - exfalso. assert (K : (1 <= 1 <= length (prj_shape_vu g))%nat) by (destruct g; cbn; lia).
    destruct (check_inv _ _ E 1%nat K ltac:(lia)) as [_ F]. congruence.
Qed.

(** ** one angle *)
(** 2-D: a line of u values is accepted with or without the leading axis of one, and nothing shorter or longer is *)
Theorem C214_line_2d : forall i n m w u B prj a k, (1 < u)%nat -> nd_shape prj = [k] \/ nd_shape prj = [1; k]%nat ->
  astra_bp i (G2 n m w u) true B prj (Some a) =
    (if (k =? u)%nat then inr (mkNd [n; m] (B (Some a) (nd_data prj))) else inl ValueError).
Proof.
  intros i n m w u B prj a k Hu Hs. destruct (Nat.eqb_spec k u) as [-> | Hk].
  - rewrite bp_one. cbn [prj_shape_vu vol_shape].
    assert (C : check_prj_shape [1%nat; u] (nd_shape prj) = None).
    { apply check_2d. intros _. destruct Hs as [-> | ->]; cbn; (split; [lia|reflexivity]). }
    rewrite C. assert (S : (size (nd_shape prj) =? size [1%nat; u])%nat = true) by (apply Nat.eqb_eq; destruct Hs as [-> | ->]; cbn; lia).
    rewrite S. reflexivity.
  - destruct Hs as [Hs|Hs].
    + apply (C214_wrong_width i _ true B prj (Some a) [] k); auto.
    + apply (C214_wrong_width i _ true B prj (Some a) [1%nat] k); auto.
Qed.
(** 2-D: what one forward projection returns can be given back, for both interfaces, although their shapes differ *)
Theorem C214_line_round_trip_2d : forall i n m w u A B vol a, nd_shape vol = [n; m] ->
  exists y, astra_fp i (G2 n m w u) true A vol (Some a) = inr y /\
    nd_shape y = match i with Traditional => squeeze [u] | Direct => [1; u]%nat end /\
    astra_bp i (G2 n m w u) true B y (Some a) = inr (mkNd [n; m] (B (Some a) (A (Some a) (nd_data vol)))).
Proof.
  intros i n m w u A B vol a Hs.
  assert (Q : forall s (d : nat -> R), size s = u -> (u <> 1%nat -> (1 <= length s)%nat /\ from_end s 1 = u) ->
    astra_bp i (G2 n m w u) true B (mkNd s d) (Some a) = inr (mkNd [n; m] (B (Some a) d))).
  { intros s d Hz Hf. rewrite bp_one. cbn [prj_shape_vu nd_shape nd_data vol_shape].
    rewrite (proj2 (check_2d u s)) by (intros Hu; apply Hf; lia).
    assert (S : (size s =? size [1%nat; u])%nat = true) by (apply Nat.eqb_eq; rewrite Hz; cbn; lia). rewrite S. reflexivity. }
  assert (V : size (nd_shape vol) = size [n; m]) by (rewrite Hs; reflexivity).
  destruct i; cbn [astra_fp].
  - rewrite check_data_ok by exact V. eexists. split; [reflexivity|]. cbn [nd_shape nd_data]. split; [reflexivity|]. apply Q.
    + unfold squeeze. cbn. destruct (Nat.eqb_spec u 1); cbn; lia.
    + intros Hu. unfold squeeze. cbn. apply Nat.eqb_neq in Hu. rewrite Hu. cbn. split; [lia|reflexivity].
  - rewrite check_data_ok by (rewrite V; cbn; lia). eexists. split; [reflexivity|]. cbn [nd_shape nd_data]. split; [reflexivity|]. apply Q.
    + cbn. lia.
    + intros _. cbn. split; [lia|reflexivity].
Qed.
(** 3-D: the line has to keep its axis of one angle *)
Theorem C214_line_3d : forall i z n m v w u B prj a, nd_shape prj = [v; 1; u]%nat ->
  astra_bp i (G3 z n m v w u) true B prj (Some a) = inr (mkNd [z; n; m] (B (Some a) (nd_data prj))).
Proof.
  intros i z n m v w u B prj a Hs. rewrite bp_one, Hs. cbn [prj_shape_vu vol_shape].
  rewrite (proj2 (check_3d v u [v; 1%nat; u])) by (split; intros _; cbn; (split; [lia|reflexivity])). rewrite Nat.eqb_refl. reflexivity.
Qed.
(** REFUTED "what one forward projection returns can be given back": in 3-D with more than one detector row it always raises
    IndexError, with both interfaces; SART gives back exactly such a line *)
Theorem C214_line_round_trip_3d_refuted : forall i z n m v w u A B vol a, (1 < v)%nat -> nd_shape vol = [z; n; m] ->
  (exists y, astra_fp i (G3 z n m v w u) true A vol (Some a) = inr y /\ (length (nd_shape y) <= 2)%nat /\
    astra_bp i (G3 z n m v w u) true B y (Some a) = inl IndexError) /\
  (forall d, astra_bp i (G3 z n m v w u) true B (mkNd [v; u] d) (Some a) = inl IndexError).
Proof.
  intros i z n m v w u A B vol a Hv Hs.
  assert (Q : forall s (d : nat -> R), (length s <= 2)%nat -> astra_bp i (G3 z n m v w u) true B (mkNd s d) (Some a) = inl IndexError).
  { intros s d Hl. unfold astra_bp. cbn [prj_shape_vu nd_shape].
    rewrite (check_short [v; 1%nat; u] s 3); [reflexivity|cbn; lia|exact Hv|lia]. }
  split; [|intros d; apply Q; cbn; lia].
  assert (V : size (nd_shape vol) = size [z; n; m]) by (rewrite Hs; reflexivity).
  assert (L : (length (squeeze [v; 1%nat; u]) <= 2)%nat).
  { unfold squeeze. cbn. destruct (Nat.eqb_spec v 1); [lia|]. cbn. destruct (Nat.eqb_spec u 1); cbn; lia. }
  destruct i; cbn [astra_fp].
  - rewrite check_data_ok by exact V. eexists. split; [reflexivity|]. cbn [nd_shape]. split; [exact L|]. apply Q. exact L.
  - rewrite check_data_ok by exact V. eexists. split; [reflexivity|]. cbn [nd_shape angle_prj_shape length]. split; [lia|]. apply Q. cbn. lia.
Qed.

(** ** all angles, there and back *)
Theorem C214_round_trip_2d : forall i n m w u ind A B vol, (1 <= w)%nat -> (1 <= u)%nat -> nd_shape vol = [n; m] ->
  exists y, astra_fp i (G2 n m w u) ind A vol None = inr y /\
    astra_bp i (G2 n m w u) ind B y None = inr (mkNd [n; m] (B None (A None (nd_data vol)))).
Proof.
  intros i n m w u ind A B vol Hw Hu Hs. assert (V : size (nd_shape vol) = size [n; m]) by (rewrite Hs; reflexivity).
  destruct i; cbn [astra_fp].
  - rewrite check_data_ok by exact V. eexists. split; [reflexivity|]. rewrite bp_full. cbn [prj_shape_vu prj_shape_vwu nd_shape nd_data vol_shape].
    rewrite (proj2 (check_2d u (squeeze [w; u]))).
    + assert (S : (size (squeeze [w; u]) =? size [w; u])%nat = true).
      { apply Nat.eqb_eq. unfold squeeze. cbn. destruct (Nat.eqb_spec w 1); destruct (Nat.eqb_spec u 1); cbn; lia. }
      rewrite S. reflexivity.
    + intros L. unfold squeeze. cbn. destruct (Nat.eqb_spec u 1); [lia|]. destruct (Nat.eqb_spec w 1); cbn; (split; [lia|reflexivity]).
  - rewrite check_data_ok by (rewrite V; cbn; lia). eexists. split; [reflexivity|]. apply (C214_sinogram_as_is Direct). reflexivity.
Qed.
Theorem C214_round_trip_3d_direct : forall z n m v w u ind A B vol, nd_shape vol = [z; n; m] ->
  exists y, astra_fp Direct (G3 z n m v w u) ind A vol None = inr y /\
    astra_bp Direct (G3 z n m v w u) ind B y None = inr (mkNd [z; n; m] (B None (A None (nd_data vol)))).
Proof.
  intros z n m v w u ind A B vol Hs. cbn [astra_fp]. rewrite check_data_ok by (rewrite Hs; reflexivity).
  eexists. split; [reflexivity|]. apply (C214_sinogram_as_is Direct). reflexivity.
Qed.
(** REFUTED for the traditional interface: the axes of length one are squeezed away, and the back-projection then misses the
    detector rows.  A scan of one angle, or a detector one pixel wide, cannot be given back. *)
Theorem C214_round_trip_3d_traditional_refuted : forall z n m v w u ind A B vol, (1 <= v)%nat -> (1 <= w)%nat -> (1 <= u)%nat ->
  nd_shape vol = [z; n; m] -> exists y, astra_fp Traditional (G3 z n m v w u) ind A vol None = inr y /\
    astra_bp Traditional (G3 z n m v w u) ind B y None =
      (if ((v =? 1) || (negb (w =? 1) && negb (u =? 1)))%nat%bool then inr (mkNd [z; n; m] (B None (A None (nd_data vol)))) else inl IndexError).
Proof.
  intros z n m v w u ind A B vol Hv Hw Hu Hs. cbn [astra_fp]. rewrite check_data_ok by (rewrite Hs; reflexivity).
  eexists. split; [reflexivity|]. rewrite bp_full. cbn [prj_shape_vu prj_shape_vwu nd_shape nd_data vol_shape].
  assert (S : (size (squeeze [v; w; u]) =? size [v; w; u])%nat = true).
  { apply Nat.eqb_eq. unfold squeeze. cbn. destruct (Nat.eqb_spec v 1); destruct (Nat.eqb_spec w 1); destruct (Nat.eqb_spec u 1); subst; cbn; lia. }
  rewrite S. unfold squeeze. cbn [filter]. destruct (Nat.eqb_spec v 1) as [Ev|Ev]; cbn [orb negb].
  - rewrite (proj2 (check_3d v u _)); [reflexivity|]. split; [|lia]. intros L.
    destruct (Nat.eqb_spec u 1); [lia|]. destruct (Nat.eqb_spec w 1); cbn; (split; [lia|reflexivity]).
  - destruct (Nat.eqb_spec w 1) as [Ew|Ew]; cbn [andb negb].
    + rewrite (check_short [v; 1%nat; u] _ 3); [reflexivity|cbn; lia|cbn; lia|]. destruct (u =? 1)%nat; cbn; lia.
    + destruct (Nat.eqb_spec u 1) as [Eu|Eu]; cbn [negb].
      * rewrite (check_short [v; 1%nat; u] _ 3); [reflexivity|cbn; lia|cbn; lia|cbn; lia].
      * rewrite (proj2 (check_3d v u [v; w; u])); [reflexivity|]. split; intros _; cbn; (split; [lia|reflexivity]).
Qed.
(** concrete: a 3-D volume, a 4 by 8 detector, 6 angles *)
Theorem C214_example : forall i B d,
  positive (G3 4 8 8 4 6 8) /\
  accepted (astra_bp i (G3 4 8 8 4 6 8) true B (mkNd [4; 6; 8]%nat d) None) /\
  ~ accepted (astra_bp i (G3 4 8 8 4 6 8) true B (mkNd [6; 4; 8]%nat d) None) /\
  astra_bp i (G3 4 8 8 4 6 8) true B (mkNd [4; 8]%nat d) (Some 2%nat) = inl IndexError.
Proof.
  intros i B d. split; [|split; [|split]].
  - unfold positive. cbn. repeat (constructor; [lia|]). constructor.
  - apply C214_sinogram_3d_only with (a := 4%nat) (b := 6%nat) (c := 8%nat); auto; lia.
  - intros H. apply (C214_sinogram_3d_only i 4 8 8 4 6 8 true B _ 6 4 8) in H; [discriminate|lia|lia|reflexivity].
  - apply (C214_line_round_trip_3d_refuted i 4 8 8 4 6 8 (fun _ x => x) B (mkNd [4; 8; 8]%nat d) 2); [lia|reflexivity].
Qed.

(** * C215: sampling of voxels and pixels *)
Lemma trunc0_nonneg x : 0 <= x -> trunc0 x = rfloor x.
Proof. intros H. unfold trunc0, rfloor. destruct (Rle_dec 0 x); [reflexivity|contradiction]. Qed.
(** both are at least the super-sampling asked for *)
Theorem C215_at_least : forall ss vox, (0 <= ss)%Z -> 0 < vox -> (ss <= voxel_sampling ss vox)%Z /\ (ss <= pixel_sampling ss vox)%Z.
Proof.
  intros ss vox Hs Hv. apply IZR_le in Hs. unfold voxel_sampling, pixel_sampling.
  pose proof (Rmax_l 1 vox) as M. pose proof (Rmin_l 1 vox) as N.
  assert (P : 0 < Rmin 1 vox) by (unfold Rmin; destruct (Rle_dec 1 vox); lra).
  assert (Q : IZR ss <= IZR ss / Rmin 1 vox).
  { apply (Rmult_le_reg_r (Rmin 1 vox)); [exact P|]. replace (IZR ss / Rmin 1 vox * Rmin 1 vox) with (IZR ss) by (field; lra). nra. }
  split; (rewrite trunc0_nonneg by nra; apply rfloor_le; nra).
Qed.
(** at most one of them is larger: the voxels when they are larger than a pixel, the pixels when they are larger than a voxel *)
Theorem C215_unit : forall ss vox, (0 <= ss)%Z -> 0 < vox ->
  (vox <= 1 -> voxel_sampling ss vox = ss) /\ (1 <= vox -> pixel_sampling ss vox = ss).
Proof.
  intros ss vox Hs Hv. apply IZR_le in Hs. unfold voxel_sampling, pixel_sampling. split; intros H.
  - rewrite Rmax_left by exact H. rewrite Rmult_1_r, trunc0_nonneg by exact Hs. apply rfloor_IZR.
  - rewrite Rmin_left by exact H. replace (IZR ss / 1) with (IZR ss) by field. rewrite trunc0_nonneg by exact Hs. apply rfloor_IZR.
Qed.
(** each is the super-sampling times the size ratio, rounded down by less than one *)
Theorem C215_value : forall ss vox, (0 <= ss)%Z -> 0 < vox ->
  (1 <= vox -> IZR (voxel_sampling ss vox) <= IZR ss * vox < IZR (voxel_sampling ss vox) + 1) /\
  (vox <= 1 -> IZR (pixel_sampling ss vox) <= IZR ss / vox < IZR (pixel_sampling ss vox) + 1).
Proof.
  intros ss vox Hs Hv. apply IZR_le in Hs. unfold voxel_sampling, pixel_sampling. split; intros H.
  - rewrite Rmax_right by exact H. rewrite trunc0_nonneg by nra. apply rfloor_spec.
  - rewrite Rmin_right by exact H. rewrite trunc0_nonneg; [apply rfloor_spec|].
    apply Rmult_le_pos; [exact Hs|]. apply Rlt_le, Rinv_0_lt_compat. exact Hv.
Qed.
(** voxels m times larger than the pixels: m times the samples per voxel; voxels m times smaller: m times per pixel *)
Theorem C215_integer_ratio : forall ss m, (0 <= ss)%Z -> (1 <= m)%Z ->
  voxel_sampling ss (IZR m) = (ss * m)%Z /\ pixel_sampling ss (1 / IZR m) = (ss * m)%Z.
Proof.
  intros ss m Hs Hm. apply IZR_le in Hs, Hm. unfold voxel_sampling, pixel_sampling.
  assert (I : 1 / IZR m <= 1). { apply (Rmult_le_reg_r (IZR m)); [lra|]. replace (1 / IZR m * IZR m) with 1 by (field; lra). lra. }
  rewrite Rmax_right by exact Hm. rewrite Rmin_right by exact I.
  replace (IZR ss / (1 / IZR m)) with (IZR (ss * m)) by (rewrite mult_IZR; field; lra).
  rewrite <- mult_IZR. assert (0 <= IZR (ss * m)) by (rewrite mult_IZR; nra). rewrite trunc0_nonneg by assumption.
  split; apply rfloor_IZR.
Qed.
(** more super-sampling never gives fewer samples *)
Theorem C215_monotone : forall s1 s2 vox, (0 <= s1 <= s2)%Z -> 0 < vox ->
  (voxel_sampling s1 vox <= voxel_sampling s2 vox)%Z /\ (pixel_sampling s1 vox <= pixel_sampling s2 vox)%Z.
Proof.
  intros s1 s2 vox [H0 H] Hv. apply IZR_le in H, H0. unfold voxel_sampling, pixel_sampling.
  pose proof (Rmax_l 1 vox) as M.
  assert (P : 0 < / Rmin 1 vox) by (apply Rinv_0_lt_compat; unfold Rmin; destruct (Rle_dec 1 vox); lra).
  unfold Rdiv. rewrite !trunc0_nonneg by nra.
  split; apply rfloor_le; (eapply Rle_trans; [apply rfloor_spec|]); nra.
Qed.
(** REFUTED "the samples per unit of length are the same in voxels and pixels": a voxel of one pixel and a half gets the samples of
    a voxel of one pixel when the super-sampling is one *)
Theorem C215_fraction_lost_refuted : voxel_sampling 1 (3 / 2) = 1%Z /\ pixel_sampling 1 (2 / 3) = 1%Z /\ voxel_sampling 2 (3 / 2) = 3%Z.
Proof.
  unfold voxel_sampling, pixel_sampling. rewrite (Rmax_right 1 (3 / 2)) by lra. rewrite Rmin_right by lra.
  split; [|split]; (rewrite trunc0_nonneg by lra; apply rfloor_unique; lra).
Qed.
