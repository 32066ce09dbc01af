(** The N-dimensional discrete Fourier transform: a small library with no model content.  np.fft.fftn and ifftn apply
    the 1-D transform along each listed axis, the last one first; both are modelled here as exact finite sums. *)
From Coq Require Import Reals Lra Lia List ZArith FunctionalExtensionality.
From Verif Require Import Sums Arrays Fourier.
Import ListNotations.
Open Scope R_scope.

Definition carr := list nat -> C.
Definition calong (ax : nat) (op : cvec -> cvec) (x : carr) : carr :=
  fun l => op (fun i => x (set_nth ax i l)) (nth ax l 0%nat).
(** a linear 1-D operator given by its kernel *)
Definition kop (n : nat) (K : nat -> nat -> C) (x : cvec) : cvec := fun k => csum n (fun j => x j *c K j k).
(** norm="ortho": both directions carry the factor 1/sqrt(n) *)
Definition dfto (n : nat) (x : cvec) : cvec := fun k => RtoC (/ sqrt (INR n)) *c dft n x k.
Definition idfto (n : nat) (X : cvec) : cvec :=
  fun j => RtoC (/ sqrt (INR n)) *c csum n (fun k => X k *c w n (Z.of_nat j * Z.of_nat k)).
Definition fftn_ortho (s axes : list nat) (x : carr) : carr :=
  fold_right (fun a y => calong a (dfto (nth a s 0%nat)) y) x axes.
Definition ifftn_ortho (s axes : list nat) (x : carr) : carr :=
  fold_right (fun a y => calong a (idfto (nth a s 0%nat)) y) x axes.
(** norm="backward" (the default): 1 forward, 1/n backward *)
Definition fftn (s axes : list nat) (x : carr) : carr := fold_right (fun a y => calong a (dft (nth a s 0%nat)) y) x axes.
Definition ifftn (s axes : list nat) (x : carr) : carr := fold_right (fun a y => calong a (idft (nth a s 0%nat)) y) x axes.
(** real part of the Hermitian inner product *)
Definition cdot (s : list nat) (x y : carr) : R := bsum s (fun l => fst (x l) * fst (y l) + snd (x l) * snd (y l)).

(** ** 1-D facts *)
Lemma isqrt_sq n : (0 < n)%nat -> / sqrt (INR n) * / sqrt (INR n) = / INR n.
Proof.
  intros H. assert (0 < INR n) by (apply lt_0_INR; lia). rewrite <- Rinv_mult, sqrt_sqrt by lra. reflexivity.
Qed.
Lemma idfto_eq n X j : (0 < n)%nat -> idfto n X j = RtoC (sqrt (INR n)) *c idft n X j.
Proof.
  intros H. assert (0 < INR n) by (apply lt_0_INR; lia). unfold idfto, idft.
  assert (E : RtoC (/ sqrt (INR n)) = RtoC (sqrt (INR n)) *c RtoC (/ INR n)).
  { rewrite <- isqrt_sq by exact H. assert (0 < sqrt (INR n)) by (apply sqrt_lt_R0; lra).
    apply C_eq; unfold RtoC, Cmul; simpl; [field; lra|ring]. }
  rewrite E. ring.
Qed.
Lemma RtoC_isqrt n : (0 < n)%nat -> RtoC (/ sqrt (INR n)) *c RtoC (sqrt (INR n)) = C1.
Proof.
  intros H. assert (0 < INR n) by (apply lt_0_INR; lia). assert (0 < sqrt (INR n)) by (apply sqrt_lt_R0; lra).
  apply C_eq; unfold RtoC, Cmul, C1; simpl; [field; lra|ring].
Qed.
Lemma idfto_dfto n x j : (j < n)%nat -> idfto n (dfto n x) j = x j.
Proof.
  intros H. rewrite idfto_eq by lia. unfold dfto. rewrite idft_scal, idft_dft by exact H.
  replace (RtoC (sqrt (INR n)) *c (RtoC (/ sqrt (INR n)) *c x j)) with ((RtoC (/ sqrt (INR n)) *c RtoC (sqrt (INR n))) *c x j) by ring.
  rewrite RtoC_isqrt by lia. ring.
Qed.
Lemma dfto_idfto n x j : (j < n)%nat -> dfto n (idfto n x) j = x j.
Proof.
  intros H. unfold dfto. rewrite (dft_ext n _ (fun k => RtoC (sqrt (INR n)) *c idft n x k)) by (intros; apply idfto_eq; lia).
  rewrite dft_scal, dft_idft by exact H.
  replace (RtoC (/ sqrt (INR n)) *c (RtoC (sqrt (INR n)) *c x j)) with ((RtoC (/ sqrt (INR n)) *c RtoC (sqrt (INR n))) *c x j) by ring.
  rewrite RtoC_isqrt by lia. ring.
Qed.
Lemma dfto_kop n x : dfto n x = kop n (fun j k => RtoC (/ sqrt (INR n)) *c w n (- (Z.of_nat j * Z.of_nat k))) x.
Proof.
  apply functional_extensionality. intros k. unfold dfto, dft, kop. rewrite <- csum_scal. apply csum_ext. intros; ring.
Qed.
Lemma idfto_kop n x : idfto n x = kop n (fun j k => RtoC (/ sqrt (INR n)) *c w n (Z.of_nat k * Z.of_nat j)) x.
Proof.
  apply functional_extensionality. intros k. unfold idfto, kop. rewrite <- csum_scal. apply csum_ext. intros; ring.
Qed.
Lemma dft_kop n x : dft n x = kop n (fun j k => w n (- (Z.of_nat j * Z.of_nat k))) x.
Proof. reflexivity. Qed.
Lemma idft_kop n x : idft n x = kop n (fun j k => RtoC (/ INR n) *c w n (Z.of_nat k * Z.of_nat j)) x.
Proof. apply functional_extensionality. intros k. unfold idft, kop. rewrite <- csum_scal. apply csum_ext. intros; ring. Qed.

(** ** Along axes *)
Lemma set_nth_comm {A} a b (v u : A) l : a <> b -> set_nth a v (set_nth b u l) = set_nth b u (set_nth a v l).
Proof.
  revert a b. induction l as [|h t IH]; intros [|a] [|b] H; simpl; try reflexivity; try congruence.
  f_equal. apply IH. congruence.
Qed.
Lemma nth_set_nth_ne {A} a b (v d : A) l : a <> b -> nth a (set_nth b v l) d = nth a l d.
Proof.
  revert a b. induction l as [|h t IH]; intros [|a] [|b] H; simpl; try reflexivity; try congruence.
  apply IH. congruence.
Qed.
Lemma calong_comm a b n m K L x : a <> b ->
  calong a (kop n K) (calong b (kop m L) x) = calong b (kop m L) (calong a (kop n K) x).
Proof.
  intros H. apply functional_extensionality. intros l. unfold calong, kop.
  rewrite (csum_ext n _ (fun j => csum m (fun i => x (set_nth a j (set_nth b i l)) *c L i (nth b l 0%nat) *c K j (nth a l 0%nat)))).
  2:{ intros j _. rewrite <- csum_scal_r. rewrite nth_set_nth_ne by congruence. apply csum_ext. intros i _.
      rewrite (set_nth_comm b a) by congruence. reflexivity. }
  rewrite csum_swap. apply csum_ext. intros i _. rewrite <- csum_scal_r. apply csum_ext. intros j _.
  rewrite nth_set_nth_ne by exact H. ring.
Qed.
(** agreement on the valid indices *)
Definition ceq (s : list nat) (x y : carr) : Prop := forall l, inb s l -> x l = y l.
Lemma calong_kop_ceq s a K x y : ceq s x y -> ceq s (calong a (kop (nth a s 0%nat) K) x) (calong a (kop (nth a s 0%nat) K) y).
Proof.
  intros H l Hl. unfold calong, kop. apply csum_ext. intros j Hj. rewrite H; [reflexivity|]. apply inb_set; assumption.
Qed.
Lemma calong_inv s a opA opB x : (a < length s)%nat ->
  (forall u j, (j < nth a s 0)%nat -> opB (opA u) j = u j) ->
  ceq s (calong a opB (calong a opA x)) x.
Proof.
  intros Ha H l Hl. unfold calong. pose proof (inb_length s l Hl) as Hlen.
  replace (fun i => opA (fun i0 => x (set_nth a i0 (set_nth a i l))) (nth a (set_nth a i l) 0%nat))
    with (fun i => opA (fun i0 => x (set_nth a i0 l)) i).
  2:{ apply functional_extensionality. intros i. rewrite nth_set_nth by lia. f_equal.
      apply functional_extensionality. intros i0. rewrite set_set_nth. reflexivity. }
  change (fun i => opA (fun i0 => x (set_nth a i0 l)) i) with (opA (fun i0 => x (set_nth a i0 l))).
  rewrite H by (apply inb_nth; assumption). rewrite set_nth_nth. reflexivity.
Qed.
Lemma calong_ins ax op x i l : (ax <= length l)%nat ->
  calong ax op x (ins ax i l) = op (fun j => x (ins ax j l)) i.
Proof.
  intros H. unfold calong. rewrite nth_ins by exact H. f_equal. apply functional_extensionality. intros j. rewrite set_ins by exact H. reflexivity.
Qed.
Definition cdot1 (n : nat) (u v : cvec) : R := rsum n (fun i => fst (u i) * fst (v i) + snd (u i) * snd (v i)).
Lemma cdot1_csum n u v : cdot1 n u v = fst (csum n (fun i => u i *c conj (v i))).
Proof. unfold cdot1, csum; simpl. apply rsum_ext. intros; ring. Qed.
Lemma kop_adjoint n K u v :
  cdot1 n (kop n K u) v = cdot1 n u (kop n (fun k j => conj (K j k)) v).
Proof.
  rewrite !cdot1_csum. f_equal. unfold kop.
  rewrite (csum_ext n _ (fun i => csum n (fun j => u j *c K j i *c conj (v i)))) by (intros; rewrite <- csum_scal_r; reflexivity).
  rewrite csum_swap. apply csum_ext. intros j _. rewrite csum_conj, <- csum_scal. apply csum_ext. intros i _.
  rewrite conj_mul, conj_conj. ring.
Qed.
Lemma dfto_adjoint n u v : cdot1 n (dfto n u) v = cdot1 n u (idfto n v).
Proof.
  rewrite dfto_kop, idfto_kop, kop_adjoint. unfold cdot1. apply rsum_ext. intros i Hi.
  replace (kop n (fun k j => conj (RtoC (/ sqrt (INR n)) *c w n (- (Z.of_nat j * Z.of_nat k)))) v i)
    with (kop n (fun j k => RtoC (/ sqrt (INR n)) *c w n (Z.of_nat k * Z.of_nat j)) v i); [reflexivity|].
  unfold kop. apply csum_ext. intros j _. rewrite conj_mul, <- w_neg, Z.opp_involutive. f_equal. f_equal.
  apply C_eq; unfold RtoC, conj; simpl; [reflexivity|ring].
Qed.
Lemma calong_adjoint s ax opA opB x y : (ax < length s)%nat ->
  (forall u v, cdot1 (nth ax s 0%nat) (opA u) v = cdot1 (nth ax s 0%nat) u (opB v)) ->
  cdot s (calong ax opA x) y = cdot s x (calong ax opB y).
Proof.
  intros Hax H. unfold cdot. rewrite !(bsum_axis s ax) by exact Hax. apply bsum_ext. intros l Hl.
  apply inb_length in Hl. rewrite del_length in Hl by exact Hax.
  rewrite (rsum_ext _ _ (fun i => fst (opA (fun j => x (ins ax j l)) i) * fst (y (ins ax i l)) + snd (opA (fun j => x (ins ax j l)) i) * snd (y (ins ax i l))))
    by (intros; rewrite calong_ins by lia; reflexivity).
  rewrite (rsum_ext _ (fun i => fst (x (ins ax i l)) * fst (calong ax opB y (ins ax i l)) + _)
     (fun i => fst (x (ins ax i l)) * fst (opB (fun j => y (ins ax j l)) i) + snd (x (ins ax i l)) * snd (opB (fun j => y (ins ax j l)) i)))
    by (intros; rewrite calong_ins by lia; reflexivity).
  apply (H (fun j => x (ins ax j l)) (fun j => y (ins ax j l))).
Qed.

(** ** fftn / ifftn *)
Definition axes_ok (s axes : list nat) : Prop := Forall (fun a => (a < length s)%nat) axes.
Lemma ifo_comm s a axes x :
  calong a (idfto (nth a s 0%nat)) (ifftn_ortho s axes x) = ifftn_ortho s axes (calong a (idfto (nth a s 0%nat)) x).
Proof.
  induction axes as [|b t IH]; simpl; [reflexivity|]. rewrite <- IH.
  destruct (Nat.eq_dec a b) as [->|Hab]; [reflexivity|].
  assert (E : forall c z, calong c (idfto (nth c s 0%nat)) z = calong c (kop (nth c s 0%nat) (fun j k => RtoC (/ sqrt (INR (nth c s 0%nat))) *c w (nth c s 0%nat) (Z.of_nat k * Z.of_nat j))) z).
  { intros c z. unfold calong. apply functional_extensionality. intros l. rewrite idfto_kop. reflexivity. }
  rewrite !E. apply calong_comm. exact Hab.
Qed.
Lemma calong_idfto_ceq s a x y : ceq s x y -> ceq s (calong a (idfto (nth a s 0%nat)) x) (calong a (idfto (nth a s 0%nat)) y).
Proof.
  intros H l Hl. unfold calong. rewrite !idfto_kop. apply (calong_kop_ceq s a _ x y H l Hl).
Qed.
Lemma calong_dfto_ceq s a x y : ceq s x y -> ceq s (calong a (dfto (nth a s 0%nat)) x) (calong a (dfto (nth a s 0%nat)) y).
Proof.
  intros H l Hl. unfold calong. rewrite !dfto_kop. apply (calong_kop_ceq s a _ x y H l Hl).
Qed.
Lemma ifo_ceq s axes x y : ceq s x y -> ceq s (ifftn_ortho s axes x) (ifftn_ortho s axes y).
Proof. intros H. induction axes as [|a t IH]; simpl; [exact H|]. apply calong_idfto_ceq, IH. Qed.
Lemma fo_ceq s axes x y : ceq s x y -> ceq s (fftn_ortho s axes x) (fftn_ortho s axes y).
Proof. intros H. induction axes as [|a t IH]; simpl; [exact H|]. apply calong_dfto_ceq, IH. Qed.
Lemma ceq_trans s x y z : ceq s x y -> ceq s y z -> ceq s x z.
Proof. intros H K l Hl. rewrite H, K by exact Hl. reflexivity. Qed.
Theorem ifftn_fftn_ortho s axes x : axes_ok s axes -> ceq s (ifftn_ortho s axes (fftn_ortho s axes x)) x.
Proof.
  intros H. induction H as [|a t Ha Ht IH]; simpl; [intros l _; reflexivity|].
  rewrite ifo_comm. eapply ceq_trans; [|exact IH]. apply ifo_ceq. apply calong_inv; [exact Ha|].
  intros u j Hj. apply idfto_dfto, Hj.
Qed.
Lemma fo_comm s a axes x :
  calong a (dfto (nth a s 0%nat)) (fftn_ortho s axes x) = fftn_ortho s axes (calong a (dfto (nth a s 0%nat)) x).
Proof.
  induction axes as [|b t IH]; simpl; [reflexivity|]. rewrite <- IH.
  destruct (Nat.eq_dec a b) as [->|Hab]; [reflexivity|].
  assert (E : forall c z, calong c (dfto (nth c s 0%nat)) z = calong c (kop (nth c s 0%nat) (fun j k => RtoC (/ sqrt (INR (nth c s 0%nat))) *c w (nth c s 0%nat) (- (Z.of_nat j * Z.of_nat k)))) z).
  { intros c z. unfold calong. apply functional_extensionality. intros l. rewrite dfto_kop. reflexivity. }
  rewrite !E. apply calong_comm. exact Hab.
Qed.
Theorem fftn_ifftn_ortho s axes x : axes_ok s axes -> ceq s (fftn_ortho s axes (ifftn_ortho s axes x)) x.
Proof.
  intros H. induction H as [|a t Ha Ht IH]; simpl; [intros l _; reflexivity|].
  rewrite fo_comm. eapply ceq_trans; [|exact IH]. apply fo_ceq. apply calong_inv; [exact Ha|].
  intros u j Hj. apply dfto_idfto, Hj.
Qed.
Theorem fftn_adjoint_ortho s axes x y : axes_ok s axes -> cdot s (fftn_ortho s axes x) y = cdot s x (ifftn_ortho s axes y).
Proof.
  intros H. revert x y. induction H as [|a t Ha Ht IH]; intros x y; simpl; [reflexivity|].
  rewrite (calong_adjoint s a _ (idfto (nth a s 0%nat))); [|exact Ha|intros; apply dfto_adjoint].
  rewrite IH, ifo_comm. reflexivity.
Qed.

(** ** Conjugate symmetry *)
Definition neg1 (s : list nat) (a : nat) (l : list nat) : list nat := set_nth a (imod (nth a s 0%nat) (- Z.of_nat (nth a l 0%nat))) l.
Definition negs (s axes l : list nat) : list nat := fold_right (neg1 s) l axes.
Definition cconj (x : carr) : carr := fun l => conj (x l).
Lemma set_nth_out {A} a (v : A) l : (length l <= a)%nat -> set_nth a v l = l.
Proof. revert a. induction l as [|h t IH]; intros [|a] Ha; simpl in *; try reflexivity; [lia|]. f_equal. apply IH. lia. Qed.
Lemma neg1_inb s a l : inb s l -> inb s (neg1 s a l).
Proof.
  intros H. unfold neg1. destruct (Nat.lt_ge_cases a (length s)) as [Ha|Ha].
  - apply inb_set; [exact H|]. apply imod_lt. pose proof (inb_nth s a l H Ha). lia.
  - pose proof (inb_length _ _ H) as E. replace (set_nth a _ l) with l; [exact H|].
    rewrite <- E in Ha. symmetry. apply set_nth_out. exact Ha.
Qed.
Lemma negs_inb s axes l : inb s l -> inb s (negs s axes l).
Proof. intros H. induction axes as [|a t IH]; simpl; [exact H|]. apply neg1_inb, IH. Qed.
Lemma neg1_set s a b i l : a <> b -> neg1 s a (set_nth b i l) = set_nth b i (neg1 s a l).
Proof. intros H. unfold neg1. rewrite nth_set_nth_ne by exact H. apply set_nth_comm, H. Qed.
Lemma negs_set s axes b i l : ~ In b axes -> negs s axes (set_nth b i l) = set_nth b i (negs s axes l).
Proof.
  intros H. induction axes as [|a t IH]; simpl in *; [reflexivity|]. rewrite IH by tauto. apply neg1_set. intros ->. tauto.
Qed.
Lemma negs_nth s axes b l d : ~ In b axes -> nth b (negs s axes l) d = nth b l d.
Proof.
  intros H. induction axes as [|a t IH]; simpl in *; [reflexivity|]. unfold neg1. rewrite nth_set_nth_ne by (intros ->; tauto). apply IH. tauto.
Qed.
Lemma csum_imod n f : csum n (fun k => f (imod n (- Z.of_nat k))) = csum n f.
Proof.
  destruct n as [|n]; [reflexivity|]. rewrite <- (csum_reflect (S n) f 0) by lia. reflexivity.
Qed.
Lemma idfto_conj n X j : (0 < n)%nat ->
  conj (idfto n X j) = idfto n (fun k => conj (X (imod n (- Z.of_nat k)))) j.
Proof.
  intros Hn. unfold idfto. rewrite conj_mul, csum_conj.
  replace (conj (RtoC (/ sqrt (INR n)))) with (RtoC (/ sqrt (INR n))) by (apply C_eq; unfold RtoC, conj; simpl; [reflexivity|ring]).
  f_equal. rewrite <- csum_imod. apply csum_ext. intros k Hk. rewrite conj_mul, <- w_neg. f_equal.
  rewrite Z.mul_comm, w_imod_neg by exact Hn. f_equal. ring.
Qed.
Lemma dfto_conj n x k : (0 < n)%nat ->
  conj (dfto n x (imod n (- Z.of_nat k))) = dfto n (fun j => conj (x j)) k.
Proof.
  intros Hn. unfold dfto, dft. rewrite conj_mul, csum_conj.
  replace (conj (RtoC (/ sqrt (INR n)))) with (RtoC (/ sqrt (INR n))) by (apply C_eq; unfold RtoC, conj; simpl; [reflexivity|ring]).
  f_equal. apply csum_ext. intros j Hj. rewrite conj_mul, <- w_neg. f_equal.
  rewrite Z.opp_involutive, Z.mul_comm, w_imod by exact Hn. f_equal. ring.
Qed.
Theorem fftn_conj s axes x l : axes_ok s axes -> NoDup axes -> inb s l ->
  conj (fftn_ortho s axes x (negs s axes l)) = fftn_ortho s axes (cconj x) l.
Proof.
  intros Hok Hnd. revert l. induction Hok as [|a t Ha Ht IH]; intros l Hl; [reflexivity|].
  inversion Hnd as [|? ? Hat Hnt]; subst. specialize (IH Hnt). cbn [fftn_ortho fold_right negs].
  fold (fftn_ortho s t x) (fftn_ortho s t (cconj x)) (negs s t l). unfold calong.
  set (n := nth a s 0%nat). pose proof (inb_nth s a l Hl Ha) as Hn. fold n in Hn.
  unfold neg1. fold n. rewrite negs_nth by exact Hat.
  assert (La : (a < length (negs s t l))%nat) by (rewrite (inb_length s) by (apply negs_inb, Hl); exact Ha).
  rewrite nth_set_nth by exact La.
  replace (fun i => fftn_ortho s t x (set_nth a i (set_nth a (imod n (- Z.of_nat (nth a l 0%nat))) (negs s t l))))
    with (fun i => fftn_ortho s t x (set_nth a i (negs s t l)))
    by (apply functional_extensionality; intros i; rewrite set_set_nth; reflexivity).
  rewrite dfto_conj by lia. unfold dfto. f_equal. apply dft_ext. intros i Hi.
  rewrite <- negs_set by exact Hat. apply IH. apply inb_set; [exact Hl|exact Hi].
Qed.
Lemma ifftn_conj s axes X l : axes_ok s axes -> NoDup axes -> inb s l ->
  conj (ifftn_ortho s axes X l) = ifftn_ortho s axes (fun m => conj (X (negs s axes m))) l.
Proof.
  intros Hok Hnd. revert l X. induction Hok as [|a t Ha Ht IH]; intros l X Hl; [reflexivity|].
  inversion Hnd as [|? ? Hat Hnt]; subst. specialize (IH Hnt). cbn [ifftn_ortho fold_right].
  fold (ifftn_ortho s t X) (ifftn_ortho s t (fun m => conj (X (negs s (a :: t) m)))).
  rewrite !ifo_comm. rewrite IH by exact Hl. revert l Hl. apply ifo_ceq. intros l Hl.
  unfold calong. set (n := nth a s 0%nat). pose proof (inb_nth s a l Hl Ha) as Hn. fold n in Hn.
  rewrite negs_nth by exact Hat. rewrite idfto_conj by lia. unfold idfto. f_equal. apply csum_ext. intros i Hi. f_equal. f_equal. f_equal.
  cbn [negs fold_right]. fold (negs s t (set_nth a i l)). rewrite negs_set by exact Hat. unfold neg1. fold n.
  assert (La : (a < length (negs s t l))%nat) by (rewrite (inb_length s) by (apply negs_inb, Hl); exact Ha).
  rewrite nth_set_nth by exact La. rewrite set_set_nth. reflexivity.
Qed.
