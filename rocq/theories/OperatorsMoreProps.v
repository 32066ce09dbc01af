(** Theorems C06-C09: convolution, wavelet padding and packing, SVD axis bookkeeping. *)
From Coq Require Import Permutation Sorting.
From Verif Require Import Sums Arrays SolversModel OperatorsModel OperatorsProps.

(** * C06: shifts of zero-extended arrays *)
Definition zlist (l : list nat) : list Z := map Z.of_nat l.
Fixpoint zadd (a b : list Z) : list Z := match a, b with x :: a', y :: b' => (x + y)%Z :: zadd a' b' | _, _ => [] end.
Definition zneg (a : list Z) : list Z := map Z.opp a.

Lemma const_read n z f : read (pad_index PadConstant n z) f = rsum n (fun a => if Z.eqb (Z.of_nat a) z then f a else 0).
Proof.
  unfold pad_index. destruct (Z.leb_spec 0 z), (Z.ltb_spec z (Z.of_nat n)); simpl.
  - rewrite (rsum_single n _ (Z.to_nat z)); [|lia|].
    + destruct (Z.eqb_spec (Z.of_nat (Z.to_nat z)) z); [reflexivity|lia].
    + intros i Hi Hne. destruct (Z.eqb_spec (Z.of_nat i) z); [lia|reflexivity].
  - symmetry. apply rsum_zero. intros i Hi. destruct (Z.eqb_spec (Z.of_nat i) z); [lia|reflexivity].
  - symmetry. apply rsum_zero. intros i Hi. destruct (Z.eqb_spec (Z.of_nat i) z); [lia|reflexivity].
  - symmetry. apply rsum_zero. intros i Hi. destruct (Z.eqb_spec (Z.of_nat i) z); [lia|reflexivity].
Qed.
Lemma shift_1d n c (H : nat -> nat -> R) :
  rsum n (fun i => read (pad_index PadConstant n (Z.of_nat i + c)) (H i)) =
  rsum n (fun a => read (pad_index PadConstant n (Z.of_nat a - c)) (fun i => H i a)).
Proof.
  rewrite (rsum_ext n _ (fun i => rsum n (fun a => if Z.eqb (Z.of_nat a) (Z.of_nat i + c) then H i a else 0))) by (intros; apply const_read).
  rewrite (rsum_ext n (fun a => read _ _) (fun a => rsum n (fun i => if Z.eqb (Z.of_nat i) (Z.of_nat a - c) then H i a else 0))) by (intros; apply const_read).
  rewrite rsum_swap. apply rsum_ext. intros a Ha. apply rsum_ext. intros i Hi.
  destruct (Z.eqb_spec (Z.of_nat a) (Z.of_nat i + c)), (Z.eqb_spec (Z.of_nat i) (Z.of_nat a - c)); try reflexivity; lia.
Qed.
Lemma zread_cons n s z p x : zread (n :: s) x (z :: p) = read (pad_index PadConstant n z) (fun a => zread s (fun l => x (a :: l)) p).
Proof.
  unfold zread, pad_read. cbn [pad_src]. destruct (pad_index PadConstant n z); simpl; [|reflexivity].
  destruct (pad_src PadConstant s p); reflexivity.
Qed.
Lemma read_bsum s o (f : nat -> arr) : bsum s (fun l => read o (fun a => f a l)) = read o (fun a => bsum s (f a)).
Proof. destruct o; simpl; [reflexivity|apply bsum_0]. Qed.
Lemma read_ext o f g : (forall a, f a = g a) -> read o f = read o g.
Proof. destruct o; simpl; auto. Qed.

Lemma shift_nd s : forall c (G : list nat -> list nat -> R), length c = length s ->
  bsum s (fun l => zread s (G l) (zadd (zlist l) c)) = bsum s (fun m => zread s (fun l => G l m) (zadd (zlist m) (zneg c))).
Proof.
  induction s as [|n s IH]; intros c G Hc; destruct c as [|c0 c]; try discriminate; [reflexivity|].
  cbn [bsum zlist map zadd zneg].
  rewrite (rsum_ext n _ (fun i => read (pad_index PadConstant n (Z.of_nat i + c0)) (fun a =>
     bsum s (fun l => zread s (fun m => G (i :: l) (a :: m)) (zadd (zlist l) c))))).
  2:{ intros i Hi. rewrite <- (read_bsum s _ (fun a l => zread s (fun m => G (i :: l) (a :: m)) (zadd (zlist l) c))). apply bsum_ext. intros l Hl. rewrite zread_cons. reflexivity. }
  rewrite (shift_1d n c0 (fun i a => bsum s (fun l => zread s (fun m => G (i :: l) (a :: m)) (zadd (zlist l) c)))).
  apply rsum_ext. intros a Ha.
  rewrite (read_ext _ _ (fun i => bsum s (fun m => zread s (fun l => G (i :: l) (a :: m)) (zadd (zlist m) (zneg c))))).
  2:{ intros i. apply (IH c (fun l m => G (i :: l) (a :: m))). injection Hc as Hc. exact Hc. }
  rewrite <- (read_bsum s _ (fun i m => zread s (fun l => G (i :: l) (a :: m)) (zadd (zlist m) (zneg c)))).
  apply bsum_ext. intros m Hm. rewrite zread_cons. reflexivity.
Qed.
Lemma zread_scal s c x p : zread s (fun l => c * x l) p = c * zread s x p.
Proof. unfold zread, pad_read. destruct (pad_src PadConstant s p); ring. Qed.

(** all kernel lengths odd *)
Definition odd_shape (K : list nat) : Prop := Forall (fun k => exists h, k = (2 * h + 1)%nat) K.
Definition zpos (l K j : list nat) : list Z :=
  map (fun t => Z.of_nat (fst (fst t)) + Z.of_nat (snd (fst t)) - Z.of_nat (snd t))%Z (combine (combine l (pad_width K)) j).

Lemma half_odd h : ((2 * h + 1 - 1) / 2 = h)%nat.
Proof. replace (2 * h + 1 - 1)%nat with (h * 2)%nat by lia. apply Nat.div_mul. lia. Qed.

(** the code's pad / convolve / crop pipeline reads the padded signal at l + (K-1)/2 - j *)
Lemma conv_direct_eq mode s : forall K kernel x l, length K = length s -> odd_shape K -> inb s l ->
  conv_direct mode s K kernel x l = bsum K (fun j => kernel j * pad_read mode s x (zpos l K j)).
Proof.
  intros K kernel x l HK Hodd Hl. unfold conv_direct, crop, convolve_same. apply bsum_ext. intros j Hj. f_equal.
  set (l1 := map (fun lp => (fst lp + snd lp)%nat) (combine l (pad_width K))).
  fold (zpos l1 K j).
  (* the position inside the padded array *)
  set (l2 := map (fun t => (fst (fst t) + 2 * snd (fst t) - snd t)%nat) (combine (combine l (pad_width K)) j)).
  assert (E : pad_src PadConstant (padded_shape s K) (zpos l1 K j) = Some l2 /\
              map (fun lp => (Z.of_nat (fst lp) - Z.of_nat (snd lp))%Z) (combine l2 (pad_width K)) = zpos l K j).
  { unfold l2, l1, zpos, padded_shape, pad_width. clear x kernel l1 l2. revert s l j HK Hl Hj.
    induction Hodd as [|k K' [h ->] Hodd IH]; intros s l j HK Hl Hj.
    - destruct s; [|discriminate]. inversion Hl; subst. inversion Hj; subst. split; reflexivity.
    - destruct s as [|n s]; [discriminate|]. inversion Hl as [|i ? l' ? Hi Hl']; subst. inversion Hj as [|jj ? j' ? Hjj Hj']; subst.
      destruct (IH s l' j' ltac:(simpl in HK; lia) Hl' Hj') as [E1 E2]. cbn [map combine fst snd pad_src]. rewrite half_odd. rewrite E1, E2.
      split.
      + replace (Z.of_nat (i + h) + Z.of_nat h - Z.of_nat jj)%Z with (Z.of_nat (i + 2 * h - jj)) by lia.
        rewrite pad_index_inside by lia. reflexivity.
      + f_equal. lia. }
  destruct E as [E1 E2]. unfold zread, pad_read at 1. rewrite E1. unfold padded. rewrite E2. reflexivity.
Qed.

Lemma bsum_flip K f : bsum K f = bsum K (fun j => f (map (fun t => (fst t - 1 - snd t)%nat) (combine K j))).
Proof.
  revert f. induction K as [|k K IH]; intros f; [reflexivity|]. cbn [bsum]. rewrite rsum_rev. apply rsum_ext. intros i Hi.
  rewrite (IH (fun l => f ((k - 1 - i)%nat :: l))). reflexivity.
Qed.

Definition halves (K : list nat) : list Z := zlist (pad_width K).
Lemma zpos_shift s K : forall l j, length K = length s -> inb s l -> inb K j ->
  zpos l K j = zadd (zlist l) (zadd (halves K) (zneg (zlist j))).
Proof.
  unfold zpos, halves, pad_width, zneg. revert s. induction K as [|k K IH]; intros s l j HK Hl Hj.
  - destruct s; [|discriminate]. inversion Hl; subst. reflexivity.
  - destruct s as [|n s]; [discriminate|]. inversion Hl; subst. inversion Hj; subst. cbn [map combine zadd zlist fst snd].
    f_equal; [lia|]. unfold zlist in IH. apply (IH s); try assumption. simpl in HK; lia.
Qed.
Lemma zpos_flip s K : forall l j, length K = length s -> odd_shape K -> inb s l -> inb K j ->
  zpos l K (map (fun t => (fst t - 1 - snd t)%nat) (combine K j)) = zadd (zlist l) (zneg (zadd (halves K) (zneg (zlist j)))).
Proof.
  intros l j HK Hodd. revert s l j HK. unfold zpos, halves, pad_width, zneg. induction Hodd as [|k K' [h ->] Hodd IH]; intros s l j HK Hl Hj.
  - destruct s; [|discriminate]. inversion Hl; subst. reflexivity.
  - destruct s as [|n s]; [discriminate|]. inversion Hl; subst. inversion Hj; subst. cbn [map combine zadd zlist fst snd].
    rewrite half_odd. f_equal; [lia|]. unfold zlist in IH. apply (IH s); try assumption. simpl in HK; lia.
Qed.
Lemma zadd_length (a b : list Z) : length a = length b -> length (zadd a b) = length a.
Proof. revert b. induction a as [|x a IH]; intros [|y b] H; simpl in *; try discriminate; auto. Qed.
Lemma shift_length (s K j : list nat) : length K = length s -> inb K j -> length (zadd (halves K) (zneg (zlist j))) = length s.
Proof.
  intros HK Hj. apply inb_length in Hj. unfold halves, zneg, zlist, pad_width.
  rewrite zadd_length; rewrite ?map_length; lia.
Qed.

Lemma conv_adjoint_flip s K kernel x y : length K = length s -> odd_shape K ->
  adot s (conv_direct PadConstant s K kernel x) y = adot s x (conv_direct PadConstant s K (np_flip K kernel) y).
Proof.
  intros HK Hodd. unfold adot.
  rewrite (bsum_ext s _ (fun l => bsum K (fun j => kernel j * zread s (fun m => x m * y l) (zadd (zlist l) (zadd (halves K) (zneg (zlist j))))))).
  2:{ intros l Hl. rewrite conv_direct_eq by assumption. rewrite Rmult_comm, <- bsum_scal. apply bsum_ext. intros j Hj.
      rewrite (zpos_shift s) by assumption. fold (zread s x (zadd (zlist l) (zadd (halves K) (zneg (zlist j))))).
      unfold zread, pad_read. destruct (pad_src _ _ _); ring. }
  rewrite bsum_swap.
  rewrite (bsum_ext K _ (fun j => kernel j * bsum s (fun m => zread s (fun l => x m * y l) (zadd (zlist m) (zneg (zadd (halves K) (zneg (zlist j)))))))).
  2:{ intros j Hj. rewrite bsum_scal. f_equal. apply (shift_nd s _ (fun l m => x m * y l)). apply shift_length; assumption. }
  rewrite (bsum_ext s (fun l => x l * _) (fun m => bsum K (fun j => kernel j * zread s (fun l => x m * y l) (zadd (zlist m) (zneg (zadd (halves K) (zneg (zlist j)))))))).
  2:{ intros m Hm. rewrite conv_direct_eq by assumption. rewrite <- bsum_scal. rewrite (bsum_flip K). apply bsum_ext. intros j Hj.
      rewrite (zpos_flip s) by assumption. unfold np_flip.
      assert (Ej : map (fun t => (fst t - 1 - snd t)%nat) (combine K (map (fun t => (fst t - 1 - snd t)%nat) (combine K j))) = j).
      { clear -Hj. unfold inb in Hj. induction Hj as [|a k j K Ha Hj IH]; [reflexivity|]. cbn [map combine fst snd]. rewrite IH. f_equal. lia. }
      rewrite Ej. unfold zread, pad_read. destruct (pad_src _ _ _); ring. }
  rewrite bsum_swap. apply bsum_ext. intros j Hj. symmetry. apply bsum_scal.
Qed.

(** <K x, y> = <x, K' y> with the flipped kernel in the adjoint: any odd kernel, any dimension *)
Theorem C06_convolution_adjoint_flipped : forall s K kernel x y, length K = length s -> odd_shape K ->
  adot s (call (transform_convolution PadConstant s K true true kernel) x) y =
  adot s x (call (transpose (transform_convolution PadConstant s K true true kernel)) y).
Proof. intros s K kernel x y HK Hodd. apply conv_adjoint_flip; assumption. Qed.

(** without flipping: kernels that are mirror images of themselves *)
Theorem C06_convolution_adjoint_symmetric : forall s K kernel x y, length K = length s -> odd_shape K ->
  (forall j, inb K j -> np_flip K kernel j = kernel j) ->
  adot s (call (transform_convolution PadConstant s K true false kernel) x) y =
  adot s x (call (transpose (transform_convolution PadConstant s K true false kernel)) y).
Proof.
  intros s K kernel x y HK Hodd Hs.
  change (adot s (conv_direct PadConstant s K kernel x) y = adot s x (conv_direct PadConstant s K kernel y)).
  rewrite conv_adjoint_flip by assumption. apply bsum_ext. intros l Hl. f_equal.
  rewrite !conv_direct_eq by assumption. apply bsum_ext. intros j Hj. rewrite Hs by exact Hj. reflexivity.
Qed.

(** and what the operation is, in the interior and at the border: the sum of kernel[j] * x[l + (K-1)/2 - j], with x
    extended by the padding mode; constants are reproduced when the kernel sums to one and the mode is 'edge'. *)
Theorem C06_convolution_formula : forall mode s K kernel x l, length K = length s -> odd_shape K -> inb s l ->
  call (transform_convolution mode s K true true kernel) x l =
  bsum K (fun j => kernel j * pad_read mode s x
    (map (fun t => Z.of_nat (fst (fst t)) + Z.of_nat ((snd (fst t) - 1) / 2) - Z.of_nat (snd t))%Z (combine (combine l K) j))).
Proof.
  intros mode s K kernel x l HK Hodd Hl.
  change (call (transform_convolution mode s K true true kernel) x l) with (conv_direct mode s K kernel x l).
  rewrite conv_direct_eq by assumption. apply bsum_ext. intros j Hj. do 2 f_equal. unfold zpos, pad_width.
  clear. revert K j. induction l as [|a l IH]; intros [|k K] [|b j]; try reflexivity. cbn [map combine fst snd]. f_equal. apply IH.
Qed.
Theorem C06_convolution_constants : forall s K kernel c l, length K = length s -> odd_shape K -> inb s l ->
  bsum K kernel = 1 -> call (transform_convolution PadEdge s K true true kernel) (fun _ => c) l = c.
Proof.
  intros s K kernel c l HK Hodd Hl Hs. rewrite C06_convolution_formula by assumption.
  rewrite (bsum_ext K _ (fun j => c * kernel j)).
  - rewrite bsum_scal, Hs. ring.
  - intros j Hj. rewrite Rmult_comm. f_equal. unfold pad_read.
    match goal with |- match pad_src _ _ ?p with _ => _ end = _ => assert (E : exists q, pad_src PadEdge s p = Some q) end.
    { clear -HK Hl Hj. revert s l j HK Hl Hj. induction K as [|k K IH]; intros s l j HK Hl Hj.
      - destruct s; [|discriminate]. inversion Hl; subst. exists []. reflexivity.
      - destruct s as [|n s]; [discriminate|]. inversion Hl as [|? ? l' ? ? Hl']; subst. inversion Hj as [|? ? j' ? ? Hj']; subst. cbn [map combine fst snd pad_src pad_index].
        simpl in HK. destruct (IH s l' j') as [q Hq]; auto. rewrite Hq. eauto. }
    destruct E as [q ->]. reflexivity.
Qed.
(** non-vacuity: an asymmetric 3-tap kernel *)
Example C06_example : odd_shape [3%nat] /\
  call (transform_convolution PadConstant [3%nat] [3%nat] true true (fun j => INR (nth 0 j 0%nat))) (fun l => INR (nth 0 l 0%nat)) [2%nat] = 4.
Proof.
  split; [constructor; [exists 1%nat; reflexivity|constructor]|].
  assert (O : odd_shape [3%nat]) by (constructor; [exists 1%nat; reflexivity|constructor]).
  assert (I : inb [3%nat] [2%nat]) by (constructor; [lia|constructor]).
  rewrite C06_convolution_formula by auto.
  cbv -[Rplus Rmult Rminus Ropp IZR INR]. simpl INR. lra.
Qed.

(** absolute() forgets the padding mode and the symmetry flags.  REFUTED (C95). *)
Theorem C95_convolution_absolute_refuted : exists kernel x l,
  (forall j, 0 <= kernel j) /\
  call (conv_absolute PadConstant [2%nat] [3%nat] true true kernel) x l <>
  call (transform_convolution PadConstant [2%nat] [3%nat] true true kernel) x l.
Proof.
  exists (fun _ => 1), (fun _ => 1), [0%nat]. split; [intros; lra|].
  assert (O : odd_shape [3%nat]) by (constructor; [exists 1%nat; reflexivity|constructor]).
  assert (I : inb [2%nat] [0%nat]) by (constructor; [lia|constructor]).
  change (call (conv_absolute PadConstant [2%nat] [3%nat] true true (fun _ => 1)) (fun _ => 1) [0%nat])
    with (call (transform_convolution PadEdge [2%nat] [3%nat] true true (fun _ => Rabs 1)) (fun _ => 1) [0%nat]).
  rewrite !C06_convolution_formula  by auto.
  rewrite Rabs_right by lra. cbv -[Rplus Rmult Rminus Ropp IZR INR]. lra.
Qed.
(** an operator whose adjoint is declared to be the identity (is_symm=False) gets a non-identity adjoint *)
Theorem C95_absolute_adjoint_refuted : exists kernel y l,
  call (transpose (transform_convolution PadConstant [2%nat] [3%nat] false false kernel)) y l = y l /\
  call (transpose (conv_absolute PadConstant [2%nat] [3%nat] false false kernel)) y l <> y l.
Proof.
  exists (fun _ => 1), (fun _ => 1), [0%nat]. split; [reflexivity|].
  assert (O : odd_shape [3%nat]) by (constructor; [exists 1%nat; reflexivity|constructor]).
  assert (I : inb [2%nat] [0%nat]) by (constructor; [lia|constructor]).
  change (call (transpose (conv_absolute PadConstant [2%nat] [3%nat] false false (fun _ => 1))) (fun _ => 1) [0%nat])
    with (call (transform_convolution PadEdge [2%nat] [3%nat] true true (fun _ => Rabs 1)) (fun _ => 1) [0%nat]).
  rewrite C06_convolution_formula  by auto.
  rewrite Rabs_right by lra. cbv -[Rplus Rmult Rminus Ropp IZR INR]. lra.
Qed.
