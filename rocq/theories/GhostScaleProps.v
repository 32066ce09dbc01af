(** C145: the sampling correction of the ghost-imaging reconstructions. *)
From Coq Require Import Reals Lra Lia List ZArith.
From Verif Require Import Sums Arrays Fourier FourierBox.
Import ListNotations.
Open Scope R_scope.

(** struct_illum.py:962-984 [adjust_sampling_scaling] for one image of the shape s (the masks' field of view): rfftn, division of every
    frequency but the zero one by the sampling ratio, irfftn.  The half-spectrum transforms of a real image and the "ortho" normalisation
    (which cancels) are written as the full transforms. *)
Definition adjust_sampling_scaling (s : list nat) (ratio : R) (img : arr) : arr := fun l =>
  fst (idftN s (fun k => RtoC (if forallb (Nat.eqb 0) k then 1 else 1 / ratio) *c dftN s (fun m => RtoC (img m)) k) l).
Definition mean_of (s : list nat) (img : arr) : R := bsum s img / INR (size s).

Lemma zeros_inb s : pos s -> inb s (repeat 0%nat (length s)).
Proof. induction 1 as [|n s Hn H IH]; cbn [length repeat]; [constructor|]. apply inb_cons. split; [lia|exact IH]. Qed.
Lemma zeros_iff s k : inb s k -> (forallb (Nat.eqb 0) k = true <-> k = repeat 0%nat (length s)).
Proof.
  revert k. induction s as [|n s IH]; intros k H.
  - inversion H; subst. cbn. tauto.
  - destruct k as [|i k]; [inversion H|]. apply inb_cons in H as [Hi Hk]. cbn [forallb length repeat]. rewrite Bool.andb_true_iff, (IH k Hk), Nat.eqb_eq. split; [intros [<- ->]; reflexivity|intros [= -> ->]; auto].
Qed.
Lemma zl_zeros n : zl (repeat 0%nat n) = repeat 0%Z n. Proof. induction n as [|n IH]; [reflexivity|]. cbn. f_equal. exact IH. Qed.
Lemma cbsum_plus s f g : cbsum s (fun l => f l +c g l) = cbsum s f +c cbsum s g.
Proof. unfold cbsum. apply C_eq; cbn [fst snd Cadd]; rewrite <- bsum_plus; reflexivity. Qed.
Lemma chi_k0 s l : length l = length s -> chi s (repeat 0%nat (length s)) (zl l) = C1.
Proof. intros H. rewrite chi_sym, zl_zeros. apply chi_0. Qed.
Lemma inb_len s l : inb s l -> length l = length s. Proof. apply inb_length. Qed.

(** the mean is kept, the deviations from it are divided by the sampling ratio *)
Theorem C145_sampling_scaling_about_the_mean : forall s ratio img l, ratio <> 0 -> inb s l ->
  adjust_sampling_scaling s ratio img l = mean_of s img + (img l - mean_of s img) / ratio.
Proof.
  intros s r img l Hr Hl. pose proof (pos_inb s l Hl) as Ps. unfold adjust_sampling_scaling. set (X := dftN s (fun m => RtoC (img m))).
  assert (E : idftN s (fun k => RtoC (if forallb (Nat.eqb 0) k then 1 else 1 / r) *c X k) l = RtoC (1 / r) *c idftN s X l +c RtoC (1 - 1 / r) *c RtoC (mean_of s img)).
  { unfold idftN. rewrite (cbsum_ext s _ (fun k => RtoC (1 / r) *c (X k *c chi s k (zl l)) +c (if forallb (Nat.eqb 0) k then RtoC (1 - 1 / r) *c (X k *c chi s k (zl l)) else C0))).
    - rewrite cbsum_plus, cbsum_scal. rewrite (cbsum_single s (repeat 0%nat (length s)) (fun k => if forallb (Nat.eqb 0) k then _ else C0)).
      + rewrite (proj2 (zeros_iff s _ (zeros_inb s Ps)) eq_refl). rewrite chi_k0 by (now apply inb_len).
        assert (X0 : X (repeat 0%nat (length s)) = RtoC (bsum s img)).
        { unfold X, dftN. rewrite (cbsum_ext s _ (fun m => RtoC (img m))).
          - unfold cbsum, RtoC. cbn [fst snd]. f_equal. now rewrite bsum_0.
          - intros m Hm. rewrite chi_k0 by (now apply inb_len). rewrite conj_C1. unfold RtoC, C1, Cmul. cbn [fst snd]. f_equal; ring. }
        rewrite X0. unfold mean_of, RtoC, C1, Cmul, Cadd. cbn [fst snd]. f_equal; unfold Rdiv; ring.
      + apply zeros_inb, Ps.
      + intros m Hm N. destruct (forallb (Nat.eqb 0) m) eqn:F; [|reflexivity]. apply (zeros_iff s m Hm) in F. contradiction.
    - intros k Hk. destruct (forallb (Nat.eqb 0) k); unfold RtoC, Cmul, Cadd, C0; cbn [fst snd]; f_equal; ring. }
  rewrite E. unfold X. rewrite idftN_dftN by exact Hl. unfold RtoC, Cmul, Cadd. cbn [fst snd]. field. exact Hr.
Qed.
(** so the full sampling changes nothing *)
Theorem C145_sampling_scaling_full_is_identity : forall s img l, inb s l -> adjust_sampling_scaling s 1 img l = img l.
Proof. intros s img l Hl. rewrite C145_sampling_scaling_about_the_mean by (lra || exact Hl). field. Qed.
Example sampling_scaling_example : adjust_sampling_scaling [2; 2]%nat (1 / 2) (fun l => if forallb (Nat.eqb 0) l then 4 else 0) [0; 0]%nat = 7.
Proof. rewrite C145_sampling_scaling_about_the_mean; [|lra|repeat constructor]. unfold mean_of, bsum, size. cbn. lra. Qed.
