(** Reindexing finite sums over index boxes. *)
From Coq Require Import Reals Lra Lia List Permutation FinFun.
Import ListNotations.
From Verif Require Import Sums Arrays OperatorsModel OperatorsLayoutProps.
Open Scope R_scope.
(** Reindexing a finite sum along a bijection of index boxes. *)
Fixpoint idx (s : list nat) : list (list nat) :=
  match s with [] => [[]] | n :: s' => flat_map (fun i => map (cons i) (idx s')) (seq 0 n) end.
Lemma in_idx s l : In l (idx s) <-> inb s l.
Proof.
  revert l. induction s as [|n s IH]; intros l; simpl.
  - split; [intros [<-|[]]; constructor|intros H; inversion H; now left].
  - rewrite in_flat_map. split.
    + intros (i & Hi & H). apply in_map_iff in H as (m & <- & Hm). apply in_seq in Hi. apply inb_cons. split; [lia|now apply IH].
    + intros H. destruct l as [|i m]; [inversion H|]. apply inb_cons in H as [Hi Hm]. exists i. split; [apply in_seq; lia|].
      apply in_map, IH, Hm.
Qed.
Lemma NoDup_flat_map {A B} (f : A -> list B) l : NoDup l -> (forall a, In a l -> NoDup (f a)) ->
  (forall a b y, In a l -> In b l -> In y (f a) -> In y (f b) -> a = b) -> NoDup (flat_map f l).
Proof.
  induction l as [|a l IH]; intros N F D; simpl; [constructor|]. inversion N; subst.
  assert (N1 : NoDup (f a)) by (apply F; now left).
  assert (N2 : NoDup (flat_map f l)).
  { apply IH; auto. - intros; apply F; now right. - intros x b y Hx Hb; apply D; now right. }
  assert (Dis : forall y, In y (f a) -> ~ In y (flat_map f l)).
  { intros y Hy Hq. apply in_flat_map in Hq as (b & Hb & Hyb). assert (a = b) by (apply (D a b y); auto; [now left|now right]). subst. contradiction. }
  clear - N1 N2 Dis. induction (f a) as [|y r IHr]; simpl; [exact N2|]. inversion N1; subst. constructor.
  - rewrite in_app_iff. intros [?|Hq]; [contradiction|]. apply (Dis y); [now left|exact Hq].
  - apply IHr; auto. intros z Hz. apply Dis. now right.
Qed.
Lemma NoDup_idx s : NoDup (idx s).
Proof.
  induction s as [|n s IH]; simpl; [constructor; [intros []|constructor]|].
  apply NoDup_flat_map; [apply seq_NoDup| |].
  - intros i _. apply Injective_map_NoDup; [|exact IH]. intros u v E; now inversion E.
  - intros a b y _ _ H1 H2. apply in_map_iff in H1 as (u & <- & _). apply in_map_iff in H2 as (v & E & _). now inversion E.
Qed.
Lemma lsum_app {A} (l m : list A) f : lsum (l ++ m) f = lsum l f + lsum m f.
Proof. induction l; simpl; [unfold lsum; simpl; ring|]. unfold lsum in *. simpl. rewrite IHl. ring. Qed.
Lemma lsum_map {A B} (g : A -> B) l f : lsum (map g l) f = lsum l (fun a => f (g a)).
Proof. induction l; simpl; [reflexivity|]. unfold lsum in *. simpl. now rewrite IHl. Qed.
Lemma lsum_perm {A} (l m : list A) f : Permutation l m -> lsum l f = lsum m f.
Proof. induction 1; unfold lsum in *; simpl; lra. Qed.
Lemma lsum_ext {A} (l : list A) f g : (forall a, In a l -> f a = g a) -> lsum l f = lsum l g.
Proof. intros H. induction l as [|a l IH]; [reflexivity|]. unfold lsum in *. simpl. rewrite (H a) by now left. rewrite IH; [reflexivity|]. intros; apply H; now right. Qed.
Lemma lsum_seq n f : lsum (seq 0 n) f = rsum n f.
Proof. induction n as [|n IH]; [reflexivity|]. rewrite seq_S, lsum_app, IH. simpl. unfold lsum. simpl. ring. Qed.
Lemma lsum_flat_map {A B} (g : A -> list B) l f : lsum (flat_map g l) f = lsum l (fun a => lsum (g a) f).
Proof. induction l as [|a l IH]; [reflexivity|]. simpl. rewrite lsum_app, IH. reflexivity. Qed.
Lemma bsum_idx s f : bsum s f = lsum (idx s) f.
Proof.
  revert f. induction s as [|n s IH]; intros f; simpl; [unfold lsum; simpl; ring|].
  rewrite lsum_flat_map, lsum_seq. apply rsum_ext. intros i _. now rewrite lsum_map, IH.
Qed.
Lemma bsum_reindex s t (g h : list nat -> list nat) f :
  (forall l, inb t l -> inb s (g l) /\ h (g l) = l) -> (forall l, inb s l -> inb t (h l) /\ g (h l) = l) ->
  bsum t (fun l => f (g l)) = bsum s f.
Proof.
  intros Hg Hh. rewrite !bsum_idx, <- (lsum_map g). apply lsum_perm. apply NoDup_Permutation.
  - apply NoDup_map_inj; [|apply NoDup_idx]. intros x y Hx Hy E. apply in_idx in Hx, Hy.
    destruct (Hg x Hx) as [_ <-]. destruct (Hg y Hy) as [_ <-]. now rewrite E.
  - apply NoDup_idx.
  - intros l. rewrite in_map_iff. split.
    + intros (m & <- & Hm). apply in_idx in Hm. apply in_idx. now apply Hg.
    + intros H. apply in_idx in H. exists (h l). destruct (Hh l H) as [H1 H2]. split; [exact H2|now apply in_idx].
Qed.

Lemma nth_map_seq0 {A} (f : nat -> A) n k d : (k < n)%nat -> nth k (map f (seq 0 n)) d = f k.
Proof.
  intros H. rewrite (nth_indep _ d (f 0%nat)) by (rewrite map_length, seq_length; exact H).
  rewrite map_nth, seq_nth by exact H. reflexivity.
Qed.
Lemma inb_of_nth s l : length l = length s -> (forall d, (d < length s)%nat -> (nth d l 0 < nth d s 0)%nat) -> inb s l.
Proof.
  revert l. induction s as [|n s IH]; intros [|i l] E H; simpl in *; try discriminate; [constructor|].
  apply inb_cons. split; [apply (H 0%nat); lia|]. apply IH; [lia|]. intros d Hd. apply (H (S d)). lia.
Qed.
Lemma nth_map_nth (perm s : list nat) k : (k < length perm)%nat ->
  nth k (map (fun p => nth p s 0%nat) perm) 0%nat = nth (nth k perm 0%nat) s 0%nat.
Proof. revert k. induction perm as [|p perm IH]; intros [|k] H; simpl in *; try lia. apply IH. lia. Qed.
(** Summing over the transposed index box gives the same sum. *)
Lemma bsum_np_transpose perm (s : list nat) x : Permutation perm (seq 0 (length s)) ->
  bsum (transpose_shape perm s) (np_transpose perm x) = bsum s x.
Proof.
  intros P. assert (Hl : length perm = length s) by (rewrite (Permutation_length P), seq_length; reflexivity).
  assert (Np : NoDup perm) by (eapply Permutation_NoDup; [apply Permutation_sym; exact P|apply seq_NoDup]).
  assert (Hin : forall d, (d < length s)%nat -> (index_of d perm < length perm)%nat /\ nth (index_of d perm) perm 0%nat = d).
  { intros d Hd. assert (I : In d perm) by (eapply Permutation_in; [apply Permutation_sym; exact P|apply in_seq; lia]).
    destruct (In_nth _ _ 0%nat I) as (k & Hk & <-). rewrite index_of_nth by assumption. auto. }
  unfold np_transpose.
  apply (bsum_reindex s (transpose_shape perm s)
           (fun l => map (fun d => nth (index_of d perm) l 0%nat) (seq 0 (length perm)))
           (fun l => map (fun p => nth p l 0%nat) perm)).
  - intros l Hlb. pose proof (inb_length _ _ Hlb) as Ll. unfold transpose_shape in Ll. rewrite map_length in Ll. split.
    + apply inb_of_nth; [now rewrite map_length, seq_length|]. intros d Hd.
      rewrite nth_map_seq0 by lia. destruct (Hin d Hd) as [Hk Hn].
      pose proof (inb_nth _ (index_of d perm) _ Hlb) as B. unfold transpose_shape in B. rewrite map_length in B. specialize (B Hk).
      rewrite nth_map_nth, Hn in B by exact Hk. exact B.
    + apply nth_ext with (d := 0%nat) (d' := 0%nat); [rewrite map_length; lia|]. intros k Hk. rewrite map_length in Hk.
      rewrite nth_map_nth by exact Hk. assert (In (nth k perm 0%nat) (seq 0 (length s))) by (eapply Permutation_in; [exact P|now apply nth_In]).
      apply in_seq in H. rewrite nth_map_seq0 by lia. now rewrite index_of_nth.
  - intros l Hlb. pose proof (inb_length _ _ Hlb) as Ll. split.
    + apply inb_of_nth; [unfold transpose_shape; now rewrite !map_length|]. intros k Hk. unfold transpose_shape in *. rewrite map_length in Hk.
      rewrite !nth_map_nth by exact Hk. apply inb_nth; [exact Hlb|].
      assert (In (nth k perm 0%nat) (seq 0 (length s))) by (eapply Permutation_in; [exact P|now apply nth_In]).
      apply in_seq in H. lia.
    + apply nth_ext with (d := 0%nat) (d' := 0%nat); [rewrite map_length, seq_length; lia|]. intros d Hd. rewrite map_length, seq_length in Hd.
      rewrite nth_map_seq0 by lia. destruct (Hin d ltac:(lia)) as [Hk Hn].
      now rewrite nth_map_nth, Hn by exact Hk.
Qed.
