(** N-dimensional arrays: a small library with no model content.  An array is a function of a multi-index
    (list nat); [bsum s f] sums f over all multi-indices of the box of shape s (row-major order). *)
From Verif Require Import Sums.

Definition arr := list nat -> R.
Fixpoint bsum (s : list nat) (f : arr) : R :=
  match s with
  | [] => f []
  | n :: s' => rsum n (fun i => bsum s' (fun l => f (i :: l)))
  end.
(** l is a valid index of an array of shape s *)
Definition inb (s l : list nat) : Prop := Forall2 lt l s.
(** inner product of two arrays of shape s *)
Definition adot (s : list nat) (x y : arr) : R := bsum s (fun l => x l * y l).

Lemma inb_length s l : inb s l -> length l = length s.
Proof. intros H. induction H; simpl; congruence. Qed.

Lemma bsum_ext s f g : (forall l, inb s l -> f l = g l) -> bsum s f = bsum s g.
Proof.
  revert f g. induction s as [|n s IH]; intros f g H; simpl; [apply H; constructor|].
  apply rsum_ext. intros i Hi. apply IH. intros l Hl. apply H. constructor; assumption.
Qed.
Lemma bsum_plus s f g : bsum s (fun l => f l + g l) = bsum s f + bsum s g.
Proof.
  revert f g. induction s as [|n s IH]; intros f g; simpl; [reflexivity|].
  rewrite <- rsum_plus. apply rsum_ext. intros i Hi. apply IH.
Qed.
Lemma bsum_0 s : bsum s (fun _ => 0) = 0.
Proof. induction s as [|n s IH]; simpl; [reflexivity|]. apply rsum_zero. intros; apply IH. Qed.
Lemma bsum_scal s c f : bsum s (fun l => c * f l) = c * bsum s f.
Proof.
  revert f. induction s as [|n s IH]; intros f; simpl; [reflexivity|].
  rewrite <- rsum_scal. apply rsum_ext. intros; apply IH.
Qed.
Lemma bsum_opp s f : bsum s (fun l => - f l) = - bsum s f.
Proof. rewrite (bsum_ext s _ (fun l => -1 * f l)) by (intros; ring). rewrite bsum_scal. ring. Qed.
Lemma bsum_le s f g : (forall l, inb s l -> f l <= g l) -> bsum s f <= bsum s g.
Proof.
  revert f g. induction s as [|n s IH]; intros f g H; simpl; [apply H; constructor|].
  apply rsum_le. intros i Hi. apply IH. intros l Hl. apply H. constructor; assumption.
Qed.
Lemma bsum_nonneg s f : (forall l, inb s l -> 0 <= f l) -> 0 <= bsum s f.
Proof. intros H. rewrite <- (bsum_0 s). apply bsum_le. exact H. Qed.
Lemma bsum_rsum s n (f : nat -> arr) : bsum s (fun l => rsum n (fun i => f i l)) = rsum n (fun i => bsum s (f i)).
Proof.
  induction n as [|n IH]; simpl; [apply bsum_0|]. rewrite bsum_plus, IH. reflexivity.
Qed.
Lemma bsum_swap s t (f : list nat -> arr) :
  bsum s (fun l => bsum t (fun k => f l k)) = bsum t (fun k => bsum s (fun l => f l k)).
Proof.
  revert f. induction s as [|n s IH]; intros f; simpl; [reflexivity|].
  rewrite (rsum_ext n _ (fun i => bsum t (fun k => bsum s (fun l => f (i :: l) k)))) by (intros; apply IH).
  rewrite <- bsum_rsum. reflexivity.
Qed.

(** * One axis at a time *)
Fixpoint set_nth {A} (ax : nat) (v : A) (l : list A) : list A :=
  match l, ax with
  | [], _ => []
  | _ :: t, O => v :: t
  | h :: t, S a => h :: set_nth a v t
  end.
Fixpoint ins {A} (ax : nat) (v : A) (l : list A) : list A :=
  match ax, l with
  | O, _ => v :: l
  | S a, h :: t => h :: ins a v t
  | S _, [] => [v]
  end.
Fixpoint del {A} (ax : nat) (l : list A) : list A :=
  match l, ax with
  | [], _ => []
  | _ :: t, O => t
  | h :: t, S a => h :: del a t
  end.

Lemma del_length {A} ax (l : list A) : (ax < length l)%nat -> length (del ax l) = (length l - 1)%nat.
Proof.
  revert ax. induction l as [|h t IH]; intros [|a] H; simpl in *; try lia. rewrite IH by lia. lia.
Qed.
Lemma set_nth_length {A} ax (v : A) l : length (set_nth ax v l) = length l.
Proof. revert ax. induction l as [|h t IH]; intros [|a]; simpl; auto. Qed.
Lemma set_ins {A} ax (v w : A) l : (ax <= length l)%nat -> set_nth ax v (ins ax w l) = ins ax v l.
Proof.
  revert l. induction ax as [|a IH]; intros [|h t] H; simpl in *; try reflexivity; [lia|]. f_equal. apply IH. lia.
Qed.
Lemma nth_ins {A} ax (v d : A) l : (ax <= length l)%nat -> nth ax (ins ax v l) d = v.
Proof. revert l. induction ax as [|a IH]; intros [|h t] H; simpl in *; try reflexivity; [lia|]. apply IH. lia. Qed.

Lemma bsum_axis s ax f : (ax < length s)%nat ->
  bsum s f = bsum (del ax s) (fun l => rsum (nth ax s 0%nat) (fun i => f (ins ax i l))).
Proof.
  revert ax f. induction s as [|n s IH]; intros ax f H; [simpl in H; lia|].
  destruct ax as [|a]; simpl.
  - symmetry. apply bsum_rsum.
  - apply rsum_ext. intros i Hi. rewrite (IH a); [reflexivity|simpl in H; lia].
Qed.

(** apply a 1-D operation along axis [ax] *)
Definition along (ax : nat) (op : vec -> vec) (x : arr) : arr :=
  fun l => op (fun i => x (set_nth ax i l)) (nth ax l 0%nat).

Lemma along_ins ax op x i l : (ax <= length l)%nat ->
  along ax op x (ins ax i l) = op (fun j => x (ins ax j l)) i.
Proof.
  intros H. unfold along. rewrite nth_ins by exact H. f_equal. apply functional_extensionality. intros j. rewrite set_ins by exact H. reflexivity.
Qed.

(** A bilinear identity on lines gives the same identity on arrays. *)
Lemma along_adjoint s ax opA opB x y : (ax < length s)%nat ->
  (forall u v, dot (nth ax s 0%nat) (opA u) v = dot (nth ax s 0%nat) u (opB v)) ->
  adot s (along ax opA x) y = adot s x (along ax opB y).
Proof.
  intros Hax H. unfold adot. rewrite !(bsum_axis s ax) by exact Hax. apply bsum_ext. intros l Hl.
  apply inb_length in Hl. rewrite del_length in Hl by exact Hax.
  rewrite (rsum_ext _ _ (fun i => opA (fun j => x (ins ax j l)) i * y (ins ax i l))) by (intros; rewrite along_ins by lia; reflexivity).
  rewrite (rsum_ext _ (fun i => x (ins ax i l) * _) (fun i => x (ins ax i l) * opB (fun j => y (ins ax j l)) i)) by (intros; rewrite along_ins by lia; reflexivity).
  apply (H (fun j => x (ins ax j l)) (fun j => y (ins ax j l))).
Qed.
Lemma along_nonpos s ax op x : (ax < length s)%nat ->
  (forall u, dot (nth ax s 0%nat) (op u) u <= 0) -> adot s (along ax op x) x <= 0.
Proof.
  intros Hax H. unfold adot. rewrite !(bsum_axis s ax) by exact Hax.
  rewrite <- (bsum_0 (del ax s)). apply bsum_le. intros l Hl.
  apply inb_length in Hl. rewrite del_length in Hl by exact Hax.
  rewrite (rsum_ext _ _ (fun i => op (fun j => x (ins ax j l)) i * x (ins ax i l))) by (intros; rewrite along_ins by lia; reflexivity).
  apply (H (fun j => x (ins ax j l))).
Qed.

Lemma adot_sym s x y : adot s x y = adot s y x.
Proof. apply bsum_ext. intros; ring. Qed.
Lemma adot_plus_l s x x' y : adot s (fun l => x l + x' l) y = adot s x y + adot s x' y.
Proof. unfold adot. rewrite <- bsum_plus. apply bsum_ext. intros; ring. Qed.

(** indices *)
Lemma inb_cons n s i l : inb (n :: s) (i :: l) <-> (i < n)%nat /\ inb s l.
Proof. unfold inb. split; [intros H; inversion H; auto|intros [? ?]; constructor; auto]. Qed.
Lemma inb_set s ax i l : inb s l -> (i < nth ax s 0)%nat -> inb s (set_nth ax i l).
Proof.
  unfold inb. intros H. revert ax. induction H as [|a n l s Ha H IH]; intros ax Hi; [destruct ax; constructor|].
  destruct ax as [|ax]; simpl in *; constructor; auto.
Qed.
Lemma inb_nth s ax l : inb s l -> (ax < length s)%nat -> (nth ax l 0 < nth ax s 0)%nat.
Proof.
  unfold inb. intros H. revert ax. induction H as [|a n l s Ha H IH]; intros ax Hax; simpl in Hax; [lia|].
  destruct ax as [|ax]; simpl; [exact Ha|]. apply IH. lia.
Qed.
Lemma set_nth_nth {A} ax (l : list A) d : set_nth ax (nth ax l d) l = l.
Proof. revert ax. induction l as [|h t IH]; intros [|a]; simpl; try reflexivity. f_equal. apply IH. Qed.
Lemma nth_set_nth {A} ax (v d : A) l : (ax < length l)%nat -> nth ax (set_nth ax v l) d = v.
Proof. revert ax. induction l as [|h t IH]; intros [|a] H; simpl in *; try lia; [reflexivity|]. apply IH. lia. Qed.
Lemma set_set_nth {A} ax (v w : A) l : set_nth ax v (set_nth ax w l) = set_nth ax v l.
Proof. revert ax. induction l as [|h t IH]; intros [|a]; simpl; try reflexivity. f_equal. apply IH. Qed.

(** * Row-major flattening *)
Definition size (s : list nat) : nat := fold_right Nat.mul 1%nat s.
Fixpoint flat (s l : list nat) : nat :=
  match s, l with
  | n :: s', i :: l' => (i * size s' + flat s' l')%nat
  | _, _ => 0%nat
  end.
Fixpoint unflat (s : list nat) (k : nat) : list nat :=
  match s with
  | [] => []
  | n :: s' => (k / size s')%nat :: unflat s' (k mod size s')
  end.

Lemma flat_lt s l : inb s l -> (flat s l < size s)%nat.
Proof.
  unfold inb. intros H. induction H as [|i n l s Hi H IH]; simpl; [lia|]. fold (size s). nia.
Qed.
Lemma unflat_flat s l : inb s l -> unflat s (flat s l) = l.
Proof.
  unfold inb. intros H. induction H as [|i n l s Hi H IH]; simpl; [reflexivity|].
  pose proof (flat_lt s l H) as Hlt. rewrite Nat.div_add_l by lia. rewrite Nat.div_small by exact Hlt.
  rewrite (Nat.add_comm (i * size s)), Nat.mod_add, Nat.mod_small by lia. rewrite IH. f_equal. lia.
Qed.
Lemma unflat_inb s k : (k < size s)%nat -> inb s (unflat s k).
Proof.
  revert k. induction s as [|n s IH]; intros k H; [constructor|].
  change (size (n :: s)) with (n * size s)%nat in H. assert (size s <> 0%nat) by nia.
  simpl. constructor.
  - apply Nat.div_lt_upper_bound; nia.
  - apply IH. apply Nat.mod_upper_bound. assumption.
Qed.
Lemma flat_unflat s k : (k < size s)%nat -> flat s (unflat s k) = k.
Proof.
  revert k. induction s as [|n s IH]; intros k H.
  - simpl in *. lia.
  - change (size (n :: s)) with (n * size s)%nat in H. assert (size s <> 0%nat) by nia.
    simpl. fold (size s). rewrite IH by (apply Nat.mod_upper_bound; assumption).
    rewrite (Nat.div_mod k (size s)) at 3 by assumption. lia.
Qed.
Lemma rsum_mul n m f : rsum (n * m) f = rsum n (fun i => rsum m (fun j => f (i * m + j)%nat)).
Proof.
  induction n as [|n IH]; [reflexivity|]. replace (S n * m)%nat with (n * m + m)%nat by lia.
  rewrite rsum_app, IH. reflexivity.
Qed.
Lemma bsum_flat s f : bsum s f = rsum (size s) (fun k => f (unflat s k)).
Proof.
  revert f. induction s as [|n s IH]; intros f; simpl; [ring|]. fold (size s).
  rewrite rsum_mul. apply rsum_ext. intros i Hi. rewrite IH. apply rsum_ext. intros k Hk.
  rewrite Nat.div_add_l by lia. rewrite Nat.div_small by exact Hk.
  rewrite (Nat.add_comm (i * size s)), Nat.mod_add, Nat.mod_small by lia. do 2 f_equal. lia.
Qed.

Lemma inb_ins s ax i l : (ax < length s)%nat -> inb (del ax s) l -> (i < nth ax s 0)%nat -> inb s (ins ax i l).
Proof.
  revert ax l. induction s as [|n s IH]; intros ax l Hlt Hl Hi; [simpl in Hlt; lia|].
  destruct ax as [|ax]; simpl in *; [constructor; assumption|]. inversion Hl; subst. simpl. constructor; [assumption|].
  apply IH; auto. lia.
Qed.
