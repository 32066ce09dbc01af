(** Theorems C01-C06: the operator protocol, gradient, Laplacian, convolution. *)
From Verif Require Import Sums Arrays SolversModel OperatorsModel.

(** * C01 *)
(** [op] maps arrays of shape s linearly to arrays of shape t. *)
Definition linear_between (s t : list nat) (op : arr -> arr) : Prop :=
  (forall x y, (forall l, inb s l -> x l = y l) -> forall k, inb t k -> op x k = op y k) /\
  (forall x y k, inb t k -> op (fun l => x l + y l) k = op x k + op y k) /\
  (forall c x k, inb t k -> op (fun l => c * x l) k = c * op x k).
(** [adj] is the adjoint of [dir]: <dir x, y> = <x, adj y>. *)
Definition adjoint_pair (s t : list nat) (dir adj : arr -> arr) : Prop :=
  forall x y, adot t (dir x) y = adot s x (adj y).

Lemma matvec_new s t dir adj x : matvec (new_transform s t dir adj) (size s) x = Some (flatten t (dir (reshape s x))).
Proof. unfold matvec. simpl. rewrite Nat.eqb_refl. simpl. reflexivity. Qed.
Lemma matvec_new_T s t dir adj y : matvec (transpose (new_transform s t dir adj)) (size t) y = Some (flatten s (adj (reshape t y))).
Proof. unfold matvec. simpl. rewrite Nat.eqb_refl. simpl. reflexivity. Qed.

Lemma linear_sum s t op n (c : vec) (e : nat -> arr) k : linear_between s t op -> inb t k ->
  op (fun l => rsum n (fun j => c j * e j l)) k = rsum n (fun j => c j * op (e j) k).
Proof.
  intros (He & Ha & Hc) Hk. induction n as [|n IH]; simpl.
  - rewrite (He _ (fun l => 0 * (fun _ => 0) l)) by (auto; intros; simpl; ring). rewrite Hc by exact Hk. ring.
  - rewrite (Ha (fun l => rsum n (fun j => c j * e j l)) (fun l => c n * e n l)) by exact Hk. rewrite IH, Hc by exact Hk. reflexivity.
Qed.
Lemma delta_sym i j : delta i j = delta j i.
Proof. unfold delta. rewrite Nat.eqb_sym. reflexivity. Qed.
Lemma reshape_units s x l : inb s l -> reshape s x l = rsum (size s) (fun j => x j * reshape s (unit_vec j) l).
Proof.
  intros Hl. unfold reshape, unit_vec.
  rewrite (rsum_ext _ _ (fun j => delta j (flat s l) * x j)).
  - rewrite rsum_delta by (apply flat_lt, Hl). reflexivity.
  - intros j _. rewrite (delta_sym j). ring.
Qed.

Lemma explicit_applies s t op x i : linear_between s t op -> (i < size t)%nat ->
  flatten t (op (reshape s x)) i = rsum (size s) (fun j => flatten t (op (reshape s (unit_vec j))) i * x j).
Proof.
  intros Hl Hi. unfold flatten. pose proof (unflat_inb t i Hi) as Hb. destruct Hl as (He & Ha & Hc).
  rewrite (He _ (fun l => rsum (size s) (fun j => x j * reshape s (unit_vec j) l)) (fun l Hl => reshape_units s x l Hl)) by exact Hb.
  rewrite (linear_sum s t op (size s) x (fun j => reshape s (unit_vec j))) by (repeat split; auto). apply rsum_ext. intros; ring.
Qed.

Theorem C01_call_and_shapes : forall s t dir adj x,
  let T := new_transform s t dir adj in
  call T x = dir x /\ call (transpose T) x = adj x /\
  t_shape T = (size t, size s) /\ t_shape (transpose T) = (size s, size t).
Proof. intros. auto. Qed.

Theorem C01_explicit_direct : forall s t dir adj, linear_between s t dir ->
  exists He : nat -> nat -> R,
    (forall i j, explicit (new_transform s t dir adj) i j = Some (He i j)) /\
    forall x, exists y, matvec (new_transform s t dir adj) (size s) x = Some y /\
      forall i, (i < size t)%nat -> y i = rsum (size s) (fun j => He i j * x j).
Proof.
  intros s t dir adj Hl. exists (fun i j => flatten t (dir (reshape s (unit_vec j))) i). split.
  - intros i j. unfold explicit. change (in_size (new_transform s t dir adj)) with (size s). rewrite matvec_new. reflexivity.
  - intros x. exists (flatten t (dir (reshape s x))). split; [apply matvec_new|]. intros i Hi. apply explicit_applies; auto.
Qed.

Theorem C01_explicit_transpose : forall s t dir adj, linear_between t s adj ->
  exists He : nat -> nat -> R,
    (forall i j, explicit (transpose (new_transform s t dir adj)) i j = Some (He i j)) /\
    forall y, exists x, matvec (transpose (new_transform s t dir adj)) (size t) y = Some x /\
      forall i, (i < size s)%nat -> x i = rsum (size t) (fun j => He i j * y j).
Proof.
  intros s t dir adj Hl. exists (fun i j => flatten s (adj (reshape t (unit_vec j))) i). split.
  - intros i j. unfold explicit. change (in_size (transpose (new_transform s t dir adj))) with (size t). rewrite matvec_new_T. reflexivity.
  - intros y. exists (flatten s (adj (reshape t y))). split; [apply matvec_new_T|]. intros i Hi. apply explicit_applies; auto.
Qed.

Lemma flatten_reshape s l (x : arr) : inb s l -> reshape s (flatten s x) l = x l.
Proof. intros H. unfold reshape, flatten. rewrite unflat_flat by exact H. reflexivity. Qed.

(** the matrix of A.T is the transposed matrix exactly when the two functions are adjoint *)
Theorem C01_transposed_matrix_iff_adjoint : forall s t dir adj, linear_between s t dir -> linear_between t s adj ->
  ((forall i j, (i < size t)%nat -> (j < size s)%nat ->
      explicit (transpose (new_transform s t dir adj)) j i = explicit (new_transform s t dir adj) i j)
   <-> adjoint_pair s t dir adj).
Proof.
  intros s t dir adj Hd Ha.
  assert (E1 : forall i j, explicit (new_transform s t dir adj) i j = Some (flatten t (dir (reshape s (unit_vec j))) i)).
  { intros. unfold explicit. change (in_size (new_transform s t dir adj)) with (size s). rewrite matvec_new. reflexivity. }
  assert (E2 : forall i j, explicit (transpose (new_transform s t dir adj)) j i = Some (flatten s (adj (reshape t (unit_vec i))) j)).
  { intros. unfold explicit. change (in_size (transpose (new_transform s t dir adj))) with (size t). rewrite matvec_new_T. reflexivity. }
  set (M := fun i j => flatten t (dir (reshape s (unit_vec j))) i).
  set (N := fun j i => flatten s (adj (reshape t (unit_vec i))) j).
  assert (D : forall x k, inb t k -> dir x k = rsum (size s) (fun j => M (flat t k) j * x (unflat s j))).
  { intros x k Hk. destruct Hd as (He & Hd'). rewrite (He x (reshape s (flatten s x))) by (auto; intros l Hl; rewrite flatten_reshape; auto).
    pose proof (explicit_applies s t dir (flatten s x) (flat t k) (conj He Hd') (flat_lt t k Hk)) as H.
    unfold flatten at 1 in H. rewrite unflat_flat in H by exact Hk. rewrite H. reflexivity. }
  assert (A : forall y l, inb s l -> adj y l = rsum (size t) (fun i => N (flat s l) i * y (unflat t i))).
  { intros y l Hl. destruct Ha as (He & Ha'). rewrite (He y (reshape t (flatten t y))) by (auto; intros k Hk; rewrite flatten_reshape; auto).
    pose proof (explicit_applies t s adj (flatten t y) (flat s l) (conj He Ha') (flat_lt s l Hl)) as H.
    unfold flatten at 1 in H. rewrite unflat_flat in H by exact Hl. rewrite H. reflexivity. }
  assert (DS : forall x y, adot t (dir x) y = rsum (size t) (fun i => rsum (size s) (fun j => M i j * x (unflat s j) * y (unflat t i)))).
  { intros x y. unfold adot. rewrite bsum_flat. apply rsum_ext. intros i Hi. rewrite D by (apply unflat_inb, Hi).
    rewrite flat_unflat by exact Hi. rewrite <- rsum_scal_r. reflexivity. }
  assert (AS : forall x y, adot s x (adj y) = rsum (size t) (fun i => rsum (size s) (fun j => N j i * x (unflat s j) * y (unflat t i)))).
  { intros x y. unfold adot. rewrite bsum_flat. rewrite rsum_swap. apply rsum_ext. intros j Hj. rewrite A by (apply unflat_inb, Hj).
    rewrite flat_unflat by exact Hj. rewrite <- rsum_scal. apply rsum_ext. intros; ring. }
  split.
  - intros H x y. rewrite DS, AS. apply rsum_ext. intros i Hi. apply rsum_ext. intros j Hj.
    specialize (H i j Hi Hj). rewrite E1, E2 in H. injection H as H. fold (N j i) (M i j) in H. rewrite H. reflexivity.
  - intros H i j Hi Hj. rewrite E1, E2. f_equal. fold (N j i) (M i j).
    specialize (H (fun l => unit_vec j (flat s l)) (fun k => unit_vec i (flat t k))). rewrite DS, AS in H.
    assert (K : forall F : nat -> nat -> R, rsum (size t) (fun i0 => rsum (size s) (fun j0 => F i0 j0 *
        unit_vec j (flat s (unflat s j0)) * unit_vec i (flat t (unflat t i0)))) = F i j).
    { intros F. rewrite (rsum_ext _ _ (fun i0 => delta i0 i * F i0 j)).
      - rewrite rsum_delta by exact Hi. reflexivity.
      - intros i0 Hi0. rewrite flat_unflat by exact Hi0.
        rewrite (rsum_ext _ _ (fun j0 => delta j0 j * (F i0 j0 * delta i0 i))).
        + rewrite rsum_delta by exact Hj. ring.
        + intros j0 Hj0. rewrite flat_unflat by exact Hj0. unfold unit_vec. ring. }
    rewrite (K M), (K (fun i j => N j i)) in H. symmetry. exact H.
Qed.

(** Non-vacuity: the diagonal scaling of any shape. *)
Example C01_example : forall s c, linear_between s s (scale_by c) /\ adjoint_pair s s (scale_by c) (scale_by c).
Proof.
  intros s c. split; [split; [|split]|].
  - intros x y H k Hk. unfold scale_by. rewrite H by exact Hk. reflexivity.
  - intros; unfold scale_by; ring.
  - intros; unfold scale_by; ring.
  - intros x y. unfold adot, scale_by. apply bsum_ext. intros; ring.
Qed.

(** * C02: transposing twice.  REFUTED for every operator that uses the base class. *)
Theorem C02_double_transpose_is_adjoint : forall s t dir adj x,
  call (transpose (transpose (new_transform s t dir adj))) x = adj x.
Proof. reflexivity. Qed.

(** witness: the 1-D gradient of two samples; A.T.T applied as a matrix also fails (sizes) *)
Theorem C02_double_transpose_refuted : exists T x l,
  T = transform_functions [2%nat] [2%nat] (fun x l => 2 * x l) (Some (fun x l => 3 * x l)) /\
  call (transpose (transpose T)) x l <> call T x l.
Proof.
  eexists. exists (fun _ => 1), [0%nat]. split; [reflexivity|]. unfold call. simpl. lra.
Qed.
Theorem C02_double_transpose_matvec_refuted : exists T x,
  T = transform_gradient [2%nat; 2%nat] [0%Z; 1%Z] PadConstant /\ snd (t_shape (transpose (transpose T))) = snd (t_shape T) /\
  matvec T (snd (t_shape T)) x <> None /\ matvec (transpose (transpose T)) (snd (t_shape T)) x = None.
Proof.
  eexists. exists (fun _ => 1). split; [reflexivity|]. split; [reflexivity|]. split; [|reflexivity].
  unfold matvec. simpl. discriminate.
Qed.

(** The explicit-matrix projector overrides the transpose and is involutive. *)
Theorem C02_matrix_projector : forall p,
  mp_transpose (mp_transpose p) = p /\
  (forall x, mp_fp (mp_transpose p) x = mp_bp p x) /\ (forall y, mp_bp (mp_transpose p) y = mp_fp p y) /\
  t_shape (mp_transform (mp_transpose p)) = (snd (t_shape (mp_transform p)), fst (t_shape (mp_transform p))).
Proof. intros [A v q]. repeat split. Qed.
Theorem C02_matrix_projector_adjoint : forall p, adjoint_pair (mp_vol p) (mp_prj p) (mp_fp p) (mp_bp p).
Proof.
  intros p x y. unfold adot. rewrite !bsum_flat.
  rewrite (rsum_ext _ _ (fun i => rsum (size (mp_vol p)) (fun j => mp_A p i j * x (unflat (mp_vol p) j) * y (unflat (mp_prj p) i)))).
  2:{ intros i Hi. unfold mp_fp, reshape, flatten. rewrite flat_unflat by exact Hi. rewrite <- rsum_scal_r. reflexivity. }
  rewrite rsum_swap. apply rsum_ext. intros j Hj. unfold mp_bp, reshape, flatten. rewrite flat_unflat by exact Hj.
  rewrite <- rsum_scal. apply rsum_ext. intros; ring.
Qed.

(** * C03-C05: one-dimensional facts *)
Lemma pad_index_inside mode n i : (i < n)%nat -> pad_index mode n (Z.of_nat i) = Some i.
Proof.
  intros H. unfold pad_index. destruct mode.
  - destruct (Z.leb_spec 0 (Z.of_nat i)), (Z.ltb_spec (Z.of_nat i) (Z.of_nat n)); simpl; try lia. f_equal. lia.
  - f_equal. lia.
  - rewrite Z.mod_small by lia. f_equal. lia.
  - destruct (Nat.eq_dec n 1) as [->|Hn].
    + assert (i = 0%nat) by lia. subst. reflexivity.
    + rewrite Z.mod_small by lia. destruct (Z.ltb_spec (Z.of_nat i) (Z.of_nat n)); try lia. f_equal. lia.
  - rewrite Z.mod_small by lia. destruct (Z.ltb_spec (Z.of_nat i) (Z.of_nat n)); try lia. f_equal. lia.
Qed.
Lemma np_pad_inside mode n b x i : (i < n)%nat -> np_pad mode n b x (b + i)%nat = x i.
Proof.
  intros H. unfold np_pad. replace (Z.of_nat (b + i) - Z.of_nat b)%Z with (Z.of_nat i) by lia.
  rewrite pad_index_inside by exact H. reflexivity.
Qed.

(** value of the sample after the last / before the first *)
Definition after (mode : pad_mode) (n : nat) (x : vec) : R := read (pad_index mode n (Z.of_nat n)) x.
Definition before (mode : pad_mode) (n : nat) (x : vec) : R := read (pad_index mode n (-1)) x.

Lemma grad1_in mode m x i : (i < m)%nat -> grad1 mode (S m) x i = x (S i) - x i.
Proof.
  intros H. unfold grad1, np_diff. f_equal.
  - apply (np_pad_inside mode (S m) 0 x (S i)). lia.
  - apply (np_pad_inside mode (S m) 0 x i). lia.
Qed.
Lemma grad1_last mode m x : grad1 mode (S m) x m = after mode (S m) x - x m.
Proof.
  unfold grad1, np_diff. f_equal.
  apply (np_pad_inside mode (S m) 0 x m). lia.
Qed.
Lemma div1_in mode m y i : (S i < S m)%nat -> div1 mode (S m) y (S i) = y (S i) - y i.
Proof.
  intros H. unfold div1, np_diff. f_equal.
  - apply (np_pad_inside mode (S m) 1 y (S i)). lia.
  - apply (np_pad_inside mode (S m) 1 y i). lia.
Qed.
Lemma div1_first mode m y : div1 mode (S m) y 0%nat = y 0%nat - before mode (S m) y.
Proof.
  pose proof (np_pad_inside mode (S m) 1 y 0 ltac:(lia)) as H. unfold div1, np_diff. simpl Nat.add in H. rewrite H. reflexivity.
Qed.

(** summation by parts, any padding *)
Lemma grad_div_defect mode m u v :
  dot (S m) (grad1 mode (S m) u) v =
  dot (S m) u (fun i => - div1 mode (S m) v i) + (after mode (S m) u * v m - u 0%nat * before mode (S m) v).
Proof.
  unfold dot. rewrite (rsum_S_l m (fun i => u i * - div1 mode (S m) v i)). cbn [rsum]. rewrite grad1_last, div1_first.
  rewrite (rsum_ext m (fun i => grad1 mode (S m) u i * v i) (fun i => u (S i) * v i - u i * v i)) by (intros i Hi; rewrite grad1_in by exact Hi; ring).
  rewrite (rsum_ext m (fun i => u (S i) * - div1 mode (S m) v (S i)) (fun i => u (S i) * v i - u (S i) * v (S i))) by (intros i Hi; rewrite div1_in by lia; ring).
  rewrite !rsum_minus.
  assert (E : rsum m (fun i => u i * v i) + u m * v m = u 0%nat * v 0%nat + rsum m (fun i => u (S i) * v (S i))).
  { rewrite <- (rsum_S_l m (fun i => u i * v i)). reflexivity. }
  lra.
Qed.
Lemma after_const n x : after PadConstant n x = 0.
Proof. unfold after, pad_index. destruct (Z.leb_spec 0 (Z.of_nat n)), (Z.ltb_spec (Z.of_nat n) (Z.of_nat n)); simpl; lia || reflexivity. Qed.
Lemma before_const n x : before PadConstant n x = 0.
Proof. reflexivity. Qed.
Lemma after_wrap m x : after PadWrap (S m) x = x 0%nat.
Proof. unfold after, pad_index. rewrite Z.mod_same by lia. reflexivity. Qed.
Lemma before_wrap m x : before PadWrap (S m) x = x m.
Proof.
  unfold before, pad_index. replace (-1)%Z with (Z.of_nat m + (-1) * Z.of_nat (S m))%Z by lia.
  rewrite Z.mod_add, Z.mod_small by lia. unfold read. f_equal. lia.
Qed.
Lemma after_edge m x : after PadEdge (S m) x = x m.
Proof. unfold after, pad_index. unfold read. f_equal. lia. Qed.
Lemma before_edge m x : before PadEdge (S m) x = x 0%nat.
Proof. unfold before, pad_index. unfold read. f_equal. lia. Qed.
Lemma after_symm m x : after PadSymmetric (S m) x = x m.
Proof.
  unfold after, pad_index. rewrite Z.mod_small by lia. destruct (Z.ltb_spec (Z.of_nat (S m)) (Z.of_nat (S m))); [lia|].
  unfold read. f_equal. lia.
Qed.
Lemma before_symm m x : before PadSymmetric (S m) x = x 0%nat.
Proof.
  unfold before, pad_index. replace (-1)%Z with ((2 * Z.of_nat (S m) - 1) + (-1) * (2 * Z.of_nat (S m)))%Z by lia.
  rewrite Z.mod_add, Z.mod_small by lia. destruct (Z.ltb_spec (2 * Z.of_nat (S m) - 1) (Z.of_nat (S m))); [lia|].
  unfold read. f_equal. lia.
Qed.

Lemma grad_div_adjoint mode n u v : mode = PadConstant \/ mode = PadWrap ->
  dot n (grad1 mode n u) v = dot n u (fun i => - div1 mode n v i).
Proof.
  intros H. destruct n as [|m]; [reflexivity|]. rewrite grad_div_defect.
  destruct H as [-> | ->]; [rewrite after_const, before_const|rewrite after_wrap, before_wrap]; ring.
Qed.

(** the axes are valid numpy axes of an nd-dimensional array *)
Definition valid_axes (nd : nat) (axes : list Z) : Prop := Forall (fun a => (- Z.of_nat nd <= a < Z.of_nat nd)%Z) axes.
Lemma norm_axis_lt nd axes ii : valid_axes nd axes -> (ii < length axes)%nat -> (norm_axis nd (nth ii axes 0%Z) < nd)%nat.
Proof.
  intros H Hi. unfold valid_axes in H. rewrite Forall_forall in H. specialize (H (nth ii axes 0%Z) (nth_In _ _ Hi)).
  unfold norm_axis. destruct (Z.ltb_spec (nth ii axes 0%Z) 0); lia.
Qed.
Lemma along_neg ax op x l : along ax (fun v i => - op v i) x l = - along ax op x l.
Proof. reflexivity. Qed.

Lemma gradient_split s axes mode x y :
  adot (length axes :: s) (gradient s axes mode x) y =
  rsum (length axes) (fun ii => adot s (along (norm_axis (length s) (nth ii axes 0%Z)) (grad1 mode (axis_len s (nth ii axes 0%Z))) x) (fun l => y (ii :: l))).
Proof. reflexivity. Qed.
Lemma divergence_split s axes mode x y :
  adot s x (fun l => - divergence s axes mode y l) =
  rsum (length axes) (fun ii => adot s x (along (norm_axis (length s) (nth ii axes 0%Z)) (fun v i => - div1 mode (axis_len s (nth ii axes 0%Z)) v i) (fun l => y (ii :: l)))).
Proof.
  unfold adot, divergence. rewrite <- bsum_rsum. apply bsum_ext. intros l _.
  rewrite <- rsum_opp, <- rsum_scal. reflexivity.
Qed.

Theorem C03_gradient_adjoint : forall s axes mode x y, valid_axes (length s) axes ->
  mode = PadConstant \/ mode = PadWrap ->
  adot (length axes :: s) (call (transform_gradient s axes mode) x) y =
  adot s x (call (transpose (transform_gradient s axes mode)) y).
Proof.
  intros s axes mode x y Hax Hm. change (call (transform_gradient s axes mode) x) with (gradient s axes mode x).
  change (call (transpose (transform_gradient s axes mode)) y) with (fun l => - divergence s axes mode y l).
  rewrite gradient_split, divergence_split. apply rsum_ext. intros ii Hii.
  apply along_adjoint; [apply norm_axis_lt; assumption|]. intros u v. apply grad_div_adjoint. exact Hm.
Qed.
(** the default axes are valid, and are all the axes in order *)
Theorem C03_default_axes : forall nd, valid_axes nd (default_axes nd) /\
  map (norm_axis nd) (default_axes nd) = seq 0 nd.
Proof.
  intros nd. unfold default_axes. split.
  - apply Forall_forall. intros a Ha. apply in_map_iff in Ha as (i & <- & Hi). apply in_seq in Hi. lia.
  - rewrite map_map. rewrite <- (map_id (seq 0 nd)) at 2. apply map_ext_in. intros i Hi. apply in_seq in Hi.
    unfold norm_axis. destruct (Z.ltb_spec (Z.of_nat i - Z.of_nat nd) 0); lia.
Qed.
(** concrete instance with both sides non-zero: a 2 x 2 image *)
Example C03_example : adot [2;2;2]%nat (gradient [2;2]%nat (default_axes 2) PadConstant (fun l => INR (nth 1 l 0%nat))) (fun _ => 1) = -1.
Proof. cbv -[Rplus Rmult Rminus Ropp IZR INR]. simpl INR. lra. Qed.

(** * C04: the default edge padding.  REFUTED, with the exact defect. *)
Theorem C04_edge_defect : forall n x y, (0 < n)%nat ->
  adot [1; n]%nat (call (transform_gradient [n] [0%Z] PadEdge) x) y -
  adot [n] x (call (transpose (transform_gradient [n] [0%Z] PadEdge)) y) =
  x [(n - 1)%nat] * y [0%nat; (n - 1)%nat] - x [0%nat] * y [0%nat; 0%nat].
Proof.
  intros n x y Hn. destruct n as [|m]; [lia|].
  change (call (transform_gradient [S m] [0%Z] PadEdge) x) with (gradient [S m] [0%Z] PadEdge x).
  change (call (transpose (transform_gradient [S m] [0%Z] PadEdge)) y) with (fun l => - divergence [S m] [0%Z] PadEdge y l).
  change [1%nat; S m] with (length [0%Z] :: [S m]). rewrite gradient_split, divergence_split. cbn [length rsum nth].
  pose proof (grad_div_defect PadEdge m (fun i => x [i]) (fun i => y [0%nat; i])) as H. rewrite after_edge, before_edge in H.
  replace (S m - 1)%nat with m by lia.
  change (adot [S m] (along (norm_axis 1 0) (grad1 PadEdge (axis_len [S m] 0)) x) (fun l => y (0%nat :: l)))
    with (dot (S m) (grad1 PadEdge (S m) (fun i => x [i])) (fun i => y [0%nat; i])).
  change (adot [S m] x (along (norm_axis 1 0) (fun (v : vec) (i : nat) => - div1 PadEdge (axis_len [S m] 0) v i) (fun l => y (0%nat :: l))))
    with (dot (S m) (fun i => x [i]) (fun i => - div1 PadEdge (S m) (fun i => y [0%nat; i]) i)).
  lra.
Qed.
Theorem C04_edge_adjoint_refuted : exists x y,
  adot [1; 2]%nat (call (transform_gradient [2%nat] [0%Z] PadEdge) x) y <>
  adot [2%nat] x (call (transpose (transform_gradient [2%nat] [0%Z] PadEdge)) y).
Proof.
  exists (fun l => match l with [1%nat] => 1 | _ => 0 end), (fun _ => 1). intros E.
  pose proof (C04_edge_defect 2 (fun l => match l with [1%nat] => 1 | _ => 0 end) (fun _ => 1)) as H.
  rewrite E in H. simpl in H. specialize (H ltac:(lia)). lra.
Qed.
(** holds for fields vanishing on the two boundary planes of each axis *)
Theorem C04_edge_interior : forall s axes x y, valid_axes (length s) axes ->
  (forall ii l, (ii < length axes)%nat -> inb s l ->
     let ax := norm_axis (length s) (nth ii axes 0%Z) in
     nth ax l 0%nat = 0%nat \/ S (nth ax l 0%nat) = nth ax s 0%nat -> y (ii :: l) = 0) ->
  adot (length axes :: s) (call (transform_gradient s axes PadEdge) x) y =
  adot s x (call (transpose (transform_gradient s axes PadEdge)) y).
Proof.
  intros s axes x y Hax Hy. change (call (transform_gradient s axes PadEdge) x) with (gradient s axes PadEdge x).
  change (call (transpose (transform_gradient s axes PadEdge)) y) with (fun l => - divergence s axes PadEdge y l).
  rewrite gradient_split, divergence_split. apply rsum_ext. intros ii Hii.
  pose proof (norm_axis_lt (length s) axes ii Hax Hii) as Hlt. unfold axis_len. set (ax := norm_axis (length s) (nth ii axes 0%Z)) in *.
  unfold adot. rewrite !(bsum_axis s ax) by exact Hlt. apply bsum_ext. intros l Hl.
  assert (Hlen : (ax <= length l)%nat) by (apply inb_length in Hl; rewrite del_length in Hl by exact Hlt; lia).
  assert (Hins : forall i, (i < nth ax s 0)%nat -> inb s (ins ax i l)).
  { intros i Hi. apply inb_ins; assumption. }
  rewrite (rsum_ext _ _ (fun i => grad1 PadEdge (nth ax s 0%nat) (fun j => x (ins ax j l)) i * y (ii :: ins ax i l))) by (intros; rewrite along_ins by exact Hlen; reflexivity).
  rewrite (rsum_ext _ (fun i => x (ins ax i l) * _) (fun i => x (ins ax i l) * - div1 PadEdge (nth ax s 0%nat) (fun j => y (ii :: ins ax j l)) i)) by (intros; rewrite along_ins by exact Hlen; reflexivity).
  destruct (nth ax s 0%nat) as [|m] eqn:En; [reflexivity|].
  pose proof (grad_div_defect PadEdge m (fun j => x (ins ax j l)) (fun j => y (ii :: ins ax j l))) as H. unfold dot in H. rewrite H.
  rewrite after_edge, before_edge.
  assert (Z0 : y (ii :: ins ax 0%nat l) = 0).
  { apply Hy; [exact Hii|apply Hins; lia|]. left. apply nth_ins. exact Hlen. }
  assert (Zm : y (ii :: ins ax m l) = 0).
  { apply Hy; [exact Hii|apply Hins; lia|]. right. fold ax. rewrite nth_ins by exact Hlen. lia. }
  rewrite Z0, Zm. ring.
Qed.

(** * C05: the Laplacian *)
Lemma lap1_eq mode n x i : lap1 mode n x i =
  np_pad mode n 1 x (S (S i)) - 2 * np_pad mode n 1 x (S i) + np_pad mode n 1 x i.
Proof. unfold lap1, np_diff. ring. Qed.
(** the boundary terms of <lap u, v> *)
Lemma lap_form mode m u v :
  dot (S m) (lap1 mode (S m) u) v =
  - rsum m (fun i => (u (S i) - u i) * (v (S i) - v i)) + (after mode (S m) u - u m) * v m - (u 0%nat - before mode (S m) u) * v 0%nat.
Proof.
  set (U := np_pad mode (S m) 1 u).
  assert (HU : forall i, (i <= m)%nat -> U (S i) = u i) by (intros i Hi; unfold U; change (S i) with (1 + i)%nat; apply np_pad_inside; lia).
  assert (HUn : U (S (S m)) = after mode (S m) u) by (unfold U, np_pad, after; replace (Z.of_nat (S (S m)) - Z.of_nat 1)%Z with (Z.of_nat (S m)) by lia; reflexivity).
  assert (HU0 : U 0%nat = before mode (S m) u) by reflexivity.
  unfold dot. rewrite (rsum_ext (S m) _ (fun i => (U (S (S i)) - U (S i)) * v i - (U (S i) - U i) * v i)) by (intros; rewrite lap1_eq; fold U; ring).
  rewrite rsum_minus. rewrite (rsum_S_l m (fun i => (U (S i) - U i) * v i)). cbn [rsum].
  rewrite (rsum_ext m (fun i => (U (S (S i)) - U (S i)) * v i) (fun i => (u (S i) - u i) * v i)) by (intros; rewrite !HU by lia; reflexivity).
  rewrite (rsum_ext m (fun i => (U (S (S i)) - U (S i)) * v (S i)) (fun i => (u (S i) - u i) * v (S i))) by (intros; rewrite !HU by lia; reflexivity).
  rewrite HUn, HU0, !HU by lia.
  rewrite (rsum_ext m (fun i => (u (S i) - u i) * (v (S i) - v i)) (fun i => (u (S i) - u i) * v (S i) - (u (S i) - u i) * v i)) by (intros; ring).
  rewrite rsum_minus. ring.
Qed.

Definition lap_mode (mode : pad_mode) : Prop := mode = PadEdge \/ mode = PadConstant \/ mode = PadWrap \/ mode = PadSymmetric.
Lemma lap_self_adjoint mode n u v : lap_mode mode -> dot n (lap1 mode n u) v = dot n u (lap1 mode n v).
Proof.
  intros H. destruct n as [|m]; [reflexivity|]. rewrite (dot_sym _ u). rewrite !lap_form.
  rewrite (rsum_ext m (fun i => (u (S i) - u i) * (v (S i) - v i)) (fun i => (v (S i) - v i) * (u (S i) - u i))) by (intros; ring).
  destruct H as [-> | [-> | [-> | ->]]]; rewrite ?after_edge, ?before_edge, ?after_const, ?before_const, ?after_wrap, ?before_wrap, ?after_symm, ?before_symm; ring.
Qed.
Lemma lap_nonpos mode n u : lap_mode mode -> dot n (lap1 mode n u) u <= 0.
Proof.
  intros H. destruct n as [|m]; [unfold dot; simpl; lra|]. rewrite lap_form.
  assert (0 <= rsum m (fun i => (u (S i) - u i) * (u (S i) - u i))) by (apply rsum_nonneg; intros; apply Rle_0_sqr).
  pose proof (Rle_0_sqr (u 0%nat - u m)). pose proof (Rle_0_sqr (u m)). pose proof (Rle_0_sqr (u 0%nat)). unfold Rsqr in *.
  destruct H as [-> | [-> | [-> | ->]]]; rewrite ?after_edge, ?before_edge, ?after_const, ?before_const, ?after_wrap, ?before_wrap, ?after_symm, ?before_symm; lra.
Qed.

Lemma laplacian_split s axes mode x y : adot s (laplacian s axes mode x) y =
  rsum (length axes) (fun ii => adot s (along (norm_axis (length s) (nth ii axes 0%Z)) (lap1 mode (axis_len s (nth ii axes 0%Z))) x) y).
Proof.
  unfold adot, laplacian. rewrite <- bsum_rsum. apply bsum_ext. intros l _. rewrite <- rsum_scal_r. reflexivity.
Qed.
Theorem C05_laplacian_self_adjoint : forall s axes mode x y, valid_axes (length s) axes -> lap_mode mode ->
  adot s (call (transform_laplacian s axes mode) x) y = adot s x (call (transpose (transform_laplacian s axes mode)) y) /\
  adot s (call (transform_laplacian s axes mode) x) y = adot s x (call (transform_laplacian s axes mode) y).
Proof.
  intros s axes mode x y Hax Hm. change (call (transpose (transform_laplacian s axes mode)) y) with (laplacian s axes mode y).
  change (call (transform_laplacian s axes mode)) with (laplacian s axes mode).
  enough (E : adot s (laplacian s axes mode x) y = adot s x (laplacian s axes mode y)) by auto.
  rewrite (adot_sym s x), !laplacian_split. apply rsum_ext. intros ii Hii. rewrite (adot_sym s _ x).
  apply along_adjoint; [apply norm_axis_lt; assumption|]. intros u v. apply lap_self_adjoint. exact Hm.
Qed.
Theorem C05_laplacian_nonpositive : forall s axes mode x, valid_axes (length s) axes -> lap_mode mode ->
  adot s (call (transform_laplacian s axes mode) x) x <= 0.
Proof.
  intros s axes mode x Hax Hm. change (call (transform_laplacian s axes mode) x) with (laplacian s axes mode x).
  rewrite laplacian_split. rewrite <- (rsum_0 (length axes)). apply rsum_le. intros ii Hii.
  apply along_nonpos; [apply norm_axis_lt; assumption|]. intros u. apply lap_nonpos. exact Hm.
Qed.
(** with periodic padding the Laplacian is the divergence of the gradient (1-D) *)
Theorem C05_laplacian_is_div_grad : forall n x l, (0 < n)%nat -> (l < n)%nat ->
  laplacian [n] [0%Z] PadWrap x [l] = divergence [n] [0%Z] PadWrap (gradient [n] [0%Z] PadWrap x) [l].
Proof.
  intros n x l Hn Hl. unfold laplacian, divergence. cbn [length rsum nth]. rewrite !Rplus_0_l.
  change (along (norm_axis 1 0) (lap1 PadWrap (axis_len [n] 0)) x [l]) with (lap1 PadWrap n (fun i => x [i]) l).
  change (along (norm_axis 1 0) (div1 PadWrap (axis_len [n] 0)) (fun l0 => gradient [n] [0%Z] PadWrap x (0%nat :: l0)) [l])
    with (div1 PadWrap n (fun i => grad1 PadWrap n (fun k => x [k]) i) l).
  set (u := fun i => x [i]). destruct n as [|m]; [lia|].
  assert (G : forall i, (i <= m)%nat -> grad1 PadWrap (S m) u i = np_pad PadWrap (S m) 1 u (S (S i)) - u i).
  { intros i Hi. unfold grad1, np_diff. f_equal.
    - unfold np_pad. replace (Z.of_nat (S (S i)) - Z.of_nat 1)%Z with (Z.of_nat (S i) - Z.of_nat 0)%Z by lia. reflexivity.
    - apply (np_pad_inside PadWrap (S m) 0 u i). lia. }
  assert (HU : forall i, (i <= m)%nat -> np_pad PadWrap (S m) 1 u (S i) = u i).
  { intros i Hi. apply (np_pad_inside PadWrap (S m) 1 u i). lia. }
  rewrite lap1_eq, (HU l) by lia.
  destruct l as [|l].
  - rewrite div1_first, before_wrap, (G 0%nat) by lia. rewrite grad1_last, after_wrap.
    change (np_pad PadWrap (S m) 1 u 0%nat) with (before PadWrap (S m) u). rewrite before_wrap. ring.
  - rewrite div1_in by lia. rewrite (G (S l)) by lia. rewrite grad1_in by lia. rewrite (HU l) by lia. ring.
Qed.
