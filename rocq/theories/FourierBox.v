(** The discrete Fourier transform over a box of any number of dimensions, in summation form. *)
From Coq Require Import Reals Lra Lia List ZArith Bool Permutation.
Import ListNotations.
From Verif Require Import Sums Arrays Reindex Fourier.
Open Scope R_scope.

Definition carrN := list nat -> C.
Definition cbsum (s : list nat) (f : carrN) : C := (bsum s (fun l => fst (f l)), bsum s (fun l => snd (f l))).
Lemma cbsum_cons n s f : cbsum (n :: s) f = csum n (fun i => cbsum s (fun l => f (i :: l))). Proof. reflexivity. Qed.
Lemma cbsum_nil f : cbsum [] f = f []. Proof. unfold cbsum. simpl. now destruct (f []). Qed.
Lemma cbsum_ext s f g : (forall l, inb s l -> f l = g l) -> cbsum s f = cbsum s g.
Proof. intros H. unfold cbsum. f_equal; apply bsum_ext; intros l Hl; now rewrite H. Qed.
Lemma cbsum_scal s c f : cbsum s (fun l => c *c f l) = c *c cbsum s f.
Proof.
  unfold cbsum, Cmul. cbn [fst snd]. f_equal.
  - rewrite (bsum_ext s _ (fun l => fst c * fst (f l) + - snd c * snd (f l))) by (intros; ring). rewrite bsum_plus, !bsum_scal. ring.
  - rewrite bsum_plus, !bsum_scal. ring.
Qed.
Lemma cbsum_conj s f : conj (cbsum s f) = cbsum s (fun l => conj (f l)).
Proof. unfold cbsum, conj. cbn [fst snd]. now rewrite bsum_opp. Qed.
Lemma cbsum_swap s t (f : list nat -> list nat -> C) :
  cbsum s (fun l => cbsum t (f l)) = cbsum t (fun m => cbsum s (fun l => f l m)).
Proof. unfold cbsum. cbn [fst snd]. f_equal; apply bsum_swap. Qed.

Definition pos (s : list nat) : Prop := Forall (fun n => (0 < n)%nat) s.
(** points of the box, moved on the torus *)
Definition zl (l : list nat) : list Z := map Z.of_nat l.
Fixpoint zadd (t u : list Z) : list Z := match t, u with a :: t', b :: u' => (a + b)%Z :: zadd t' u' | _, _ => [] end.
Fixpoint tor (s : list nat) (t : list Z) : list nat := match s, t with n :: s', a :: t' => imod n a :: tor s' t' | _, _ => [] end.
Definition tadd (s l : list nat) (t : list Z) : list nat := tor s (zadd (zl l) t).
(** the characters *)
Fixpoint chi (s k : list nat) (t : list Z) : C :=
  match s, k, t with n :: s', a :: k', b :: t' => w n (Z.of_nat a * b) *c chi s' k' t' | _, _, _ => C1 end.
(** numpy.fft.fftn / ifftn over all axes *)
Definition dftN (s : list nat) (x : carrN) : carrN := fun k => cbsum s (fun l => x l *c conj (chi s k (zl l))).
Definition idftN (s : list nat) (X : carrN) : carrN := fun l => RtoC (/ INR (size s)) *c cbsum s (fun k => X k *c chi s k (zl l)).

Lemma zadd_length t u : length t = length u -> length (zadd t u) = length t.
Proof. revert u. induction t as [|a t IH]; intros [|b u] H; simpl in *; try lia. now rewrite IH by lia. Qed.
Lemma zl_length l : length (zl l) = length l. Proof. apply map_length. Qed.
Lemma tor_inb s t : pos s -> length t = length s -> inb s (tor s t).
Proof.
  revert t. induction s as [|n s IH]; intros [|a t] P L; simpl in *; try lia; [constructor|].
  inversion P; subst. constructor; [now apply imod_lt|apply IH; [assumption|lia]].
Qed.
Lemma tadd_inb s l t : pos s -> inb s l -> length t = length s -> inb s (tadd s l t).
Proof. intros P I L. apply tor_inb; [exact P|]. rewrite zadd_length; rewrite zl_length, (inb_length _ _ I); lia. Qed.
Lemma imod_mod n a b : (0 < n)%nat -> (a mod Z.of_nat n = b mod Z.of_nat n)%Z -> imod n a = imod n b.
Proof. intros _ E. unfold imod. now rewrite E. Qed.
Lemma tadd_back s l t : inb s l -> length t = length s -> tadd s (tadd s l t) (map Z.opp t) = l.
Proof.
  intros I. revert t. induction I as [|i n l s Hi I IH]; intros [|a t] L; simpl in L; try lia; [reflexivity|].
  unfold tadd. cbn [zl map zadd tor]. f_equal.
  - transitivity (imod n (Z.of_nat i)); [|now apply imod_small]. apply imod_mod; [lia|]. rewrite imod_of by lia.
    rewrite Z.add_mod_idemp_l by lia. f_equal. lia.
  - apply IH. lia.
Qed.
Lemma map_opp_opp t : map Z.opp (map Z.opp t) = t.
Proof. rewrite map_map. rewrite (map_ext _ (fun z => z)) by (intros; lia). apply map_id. Qed.
Lemma bsum_torus s f t : pos s -> length t = length s -> bsum s (fun l => f (tadd s l t)) = bsum s f.
Proof.
  intros P L. apply (bsum_reindex s s (fun l => tadd s l t) (fun l => tadd s l (map Z.opp t))).
  - intros l Hl. split; [now apply tadd_inb|now apply tadd_back].
  - intros l Hl. split; [apply tadd_inb; try assumption; now rewrite map_length|].
    rewrite <- (map_opp_opp t) at 2. apply tadd_back; [assumption|now rewrite map_length].
Qed.
Lemma cbsum_torus s f t : pos s -> length t = length s -> cbsum s (fun l => f (tadd s l t)) = cbsum s f.
Proof. intros P L. unfold cbsum. f_equal; [apply (bsum_torus s (fun l => fst (f l)))|apply (bsum_torus s (fun l => snd (f l)))]; assumption. Qed.

Lemma chi_add s k t u : length t = length u -> chi s k (zadd t u) = chi s k t *c chi s k u.
Proof.
  revert k t u. induction s as [|n s IH]; intros [|a k] [|b t] [|c u] L; simpl in *; try lia; try ring.
  rewrite Z.mul_add_distr_l, w_add, IH by lia. ring.
Qed.
Lemma conj_C1 : conj C1 = C1. Proof. apply C_eq; simpl; [reflexivity|ring]. Qed.
Lemma chi_opp s k t : chi s k (map Z.opp t) = conj (chi s k t).
Proof.
  revert k t. induction s as [|n s IH]; intros [|a k] [|b t]; simpl; try (symmetry; apply conj_C1).
  rewrite Z.mul_opp_r, w_neg, IH, conj_mul. reflexivity.
Qed.
Lemma chi_tor s k t : pos s -> length t = length s -> chi s k (zl (tor s t)) = chi s k t.
Proof.
  revert k t. induction s as [|n s IH]; intros [|a k] [|b t] P L; simpl in *; try lia; try reflexivity.
  inversion P; subst. rewrite (Z.mul_comm (Z.of_nat a)), w_imod, (Z.mul_comm b) by assumption. unfold zl in IH. rewrite IH by (assumption || lia). reflexivity.
Qed.
Lemma chi_tadd s k l t : pos s -> inb s l -> length t = length s -> chi s k (zl (tadd s l t)) = chi s k (zl l) *c chi s k t.
Proof.
  intros P I L. unfold tadd. rewrite chi_tor; [|exact P|].
  - apply chi_add. rewrite zl_length, (inb_length _ _ I). lia.
  - rewrite zadd_length; rewrite zl_length, (inb_length _ _ I); lia.
Qed.
Lemma cabs2_w n k : cabs2 (w n k) = 1.
Proof. unfold cabs2, w, cis. cbn [fst snd]. pose proof (sin2_cos2 (2 * PI * (IZR k / INR n))). unfold Rsqr in H. lra. Qed.
Lemma cabs2_chi s k t : cabs2 (chi s k t) = 1.
Proof.
  revert k t. induction s as [|n s IH]; intros [|a k] [|b t]; cbn [chi]; try (unfold cabs2, C1; cbn; lra).
  rewrite cabs2_mul, cabs2_w, IH. ring.
Qed.
Lemma chi_le1 s k t : fst (chi s k t) <= 1.
Proof. pose proof (cabs2_chi s k t) as H. unfold cabs2 in H. nra. Qed.
Lemma chi_eq1 s k t : fst (chi s k t) = 1 -> chi s k t = C1.
Proof. intros E. pose proof (cabs2_chi s k t) as H. unfold cabs2 in H. rewrite E in H. apply C_eq; cbn; [exact E|nra]. Qed.
Lemma chi_inv s k t : chi s k t *c conj (chi s k t) = C1.
Proof. rewrite cabs2_conj, cabs2_chi. reflexivity. Qed.
Lemma chi_0 s k : chi s k (repeat 0%Z (length s)) = C1.
Proof. revert k. induction s as [|n s IH]; intros [|a k]; simpl; try reflexivity. rewrite Z.mul_0_r, w_0, IH. ring. Qed.
Lemma chi_sym s k l : chi s k (zl l) = chi s l (zl k).
Proof. revert k l. induction s as [|n s IH]; intros [|a k] [|b l]; simpl; try reflexivity. unfold zl in IH. rewrite IH, Z.mul_comm. reflexivity. Qed.

(** orthogonality of the characters and inversion *)
Definition zero_mod (s : list nat) (t : list Z) : bool := forallb (fun p => Z.eqb (snd p mod Z.of_nat (fst p)) 0) (combine s t).
Lemma chi_orth s t : pos s -> length t = length s ->
  cbsum s (fun k => chi s k t) = if zero_mod s t then RtoC (INR (size s)) else C0.
Proof.
  revert t. induction s as [|n s IH]; intros [|b t] P L; simpl in L; try lia.
  - rewrite cbsum_nil. simpl. unfold RtoC. reflexivity.
  - inversion P; subst. rewrite cbsum_cons.
    rewrite (csum_ext n _ (fun i => w n (Z.of_nat i * b) *c cbsum s (fun k => chi s k t))) by (intros; apply cbsum_scal).
    rewrite csum_scal_r, w_orth, IH by (assumption || lia). unfold zero_mod. cbn [combine forallb fst snd]. fold (zero_mod s t).
    destruct (b mod Z.of_nat n =? 0)%Z; cbn [andb]; [|ring]. destruct (zero_mod s t); [|ring].
    change (size (n :: s)) with (n * size s)%nat. rewrite mult_INR. apply C_eq; unfold Cmul, RtoC; cbn [fst snd]; ring.
Qed.
Lemma zero_mod_eq s l m : inb s l -> inb s m -> zero_mod s (zadd (zl l) (map Z.opp (zl m))) = true -> l = m.
Proof.
  intros I. revert m. induction I as [|i n l s Hi I IH]; intros m J Z0; inversion J; subst; [reflexivity|].
  unfold zero_mod in Z0. cbn [zl map zadd combine forallb fst snd] in Z0. apply andb_true_iff in Z0 as [E Z1]. apply Z.eqb_eq in E.
  f_equal; [|now apply IH]. apply (mod_sub_0 n); try assumption.
Qed.
Lemma zero_mod_refl s l : zero_mod s (zadd (zl l) (map Z.opp (zl l))) = true.
Proof.
  revert l. induction s as [|n s IH]; intros [|i l]; try reflexivity. unfold zero_mod. cbn [zl map zadd combine forallb fst snd].
  apply andb_true_iff. split; [|apply IH]. apply Z.eqb_eq. replace (Z.of_nat i + - Z.of_nat i)%Z with 0%Z by lia. reflexivity.
Qed.
Lemma size_pos_of s : pos s -> (0 < size s)%nat.
Proof. induction 1; [cbn; lia|]. change (size (x :: l)) with (x * size l)%nat. lia. Qed.
Lemma pos_inb s l : inb s l -> pos s.
Proof. induction 1; constructor; [lia|assumption]. Qed.
Lemma bsum_single s l f : inb s l -> (forall m, inb s m -> m <> l -> f m = 0) -> bsum s f = f l.
Proof.
  intros I. revert f. induction I as [|i n l s Hi I IH]; intros f H; [reflexivity|]. cbn [bsum].
  rewrite (rsum_single n _ i Hi).
  - apply (IH (fun m => f (i :: m))). intros m Hm Hne. apply H; [now constructor|congruence].
  - intros j Hj Hne. rewrite (bsum_ext s _ (fun _ => 0)); [apply bsum_0|]. intros m Hm. apply H; [now constructor|congruence].
Qed.
Lemma cbsum_single s l f : inb s l -> (forall m, inb s m -> m <> l -> f m = C0) -> cbsum s f = f l.
Proof.
  intros I H. apply C_eq; unfold cbsum; cbn [fst snd]; [apply (bsum_single s l (fun m => fst (f m)))|apply (bsum_single s l (fun m => snd (f m)))];
    try assumption; intros m Hm Hne; rewrite H by assumption; reflexivity.
Qed.
Lemma list_eq_dec_nat (l m : list nat) : {l = m} + {l <> m}. Proof. apply list_eq_dec, Nat.eq_dec. Qed.
Theorem idftN_dftN s x l : inb s l -> idftN s (dftN s x) l = x l.
Proof.
  intros I. assert (P := pos_inb _ _ I). unfold idftN, dftN.
  rewrite (cbsum_ext s _ (fun k => cbsum s (fun m => x m *c chi s k (zadd (zl l) (map Z.opp (zl m)))))).
  2:{ intros k Hk. rewrite <- (cbsum_scal s (chi s k (zl l))) with (f := fun m => x m *c conj (chi s k (zl m))) || idtac.
      transitivity (chi s k (zl l) *c cbsum s (fun m => x m *c conj (chi s k (zl m)))); [ring|]. rewrite <- cbsum_scal. apply cbsum_ext. intros m Hm.
      rewrite chi_add, chi_opp by (rewrite map_length, !zl_length, (inb_length _ _ I), (inb_length _ _ Hm); reflexivity). ring. }
  rewrite cbsum_swap.
  rewrite (cbsum_ext s _ (fun m => x m *c (if zero_mod s (zadd (zl l) (map Z.opp (zl m))) then RtoC (INR (size s)) else C0))).
  2:{ intros m Hm. rewrite cbsum_scal, chi_orth; [reflexivity|exact P|]. rewrite zadd_length; rewrite ?map_length, !zl_length, (inb_length _ _ I); [reflexivity|now rewrite (inb_length _ _ Hm)]. }
  rewrite (cbsum_single s l); [|exact I|].
  - rewrite zero_mod_refl. assert (INR (size s) <> 0) by (apply not_0_INR; pose proof (size_pos_of s P); lia).
    apply C_eq; unfold Cmul, RtoC; cbn [fst snd]; field; assumption.
  - intros m Hm Hne. destruct (zero_mod s (zadd (zl l) (map Z.opp (zl m)))) eqn:E; [|ring]. exfalso. apply Hne. symmetry. now apply (zero_mod_eq s).
Qed.
Lemma dftN_ext s x y k : (forall l, inb s l -> x l = y l) -> dftN s x k = dftN s y k.
Proof. intros H. apply cbsum_ext. intros l Hl. now rewrite H. Qed.
Lemma idftN_ext s X Y k : (forall l, inb s l -> X l = Y l) -> idftN s X k = idftN s Y k.
Proof. intros H. unfold idftN. f_equal. apply cbsum_ext. intros l Hl. now rewrite H. Qed.
(** a circular shift multiplies the spectrum by a character *)
Theorem dftN_shift s x t k : pos s -> length t = length s ->
  dftN s (fun l => x (tadd s l (map Z.opp t))) k = conj (chi s k t) *c dftN s x k.
Proof.
  intros P L. unfold dftN. rewrite <- (cbsum_torus s (fun l => x (tadd s l (map Z.opp t)) *c conj (chi s k (zl l))) t P L).
  rewrite <- cbsum_scal. apply cbsum_ext. intros l Hl. rewrite tadd_back by assumption. rewrite chi_tadd, conj_mul by assumption. ring.
Qed.
(** real data: the spectrum at the opposite frequency is the conjugate *)
Definition tneg (s k : list nat) : list nat := tor s (map Z.opp (zl k)).
Lemma chi_tneg s k l : pos s -> inb s k -> chi s (tneg s k) (zl l) = conj (chi s k (zl l)).
Proof.
  intros P I. rewrite chi_sym. unfold tneg. rewrite chi_tor by (try exact P; rewrite map_length, zl_length; apply inb_length; exact I).
  now rewrite chi_opp, chi_sym.
Qed.
Lemma tneg_inb s k : pos s -> inb s k -> inb s (tneg s k).
Proof. intros P I. apply tor_inb; [exact P|]. rewrite map_length, zl_length. now apply inb_length. Qed.
Lemma tneg_tneg s k : inb s k -> tneg s (tneg s k) = k.
Proof.
  induction 1 as [|i n l s Hi I IH]; [reflexivity|]. unfold tneg in *. cbn [zl map tor]. f_equal; [|exact IH].
  transitivity (imod n (Z.of_nat i)); [|now apply imod_small]. apply imod_mod; [lia|]. rewrite imod_of by lia.
  rewrite <- (Z.sub_0_l (_ mod _)), Zminus_mod_idemp_r. f_equal. lia.
Qed.
Lemma dftN_real s (x : arr) k : pos s -> inb s k ->
  dftN s (fun l => RtoC (x l)) (tneg s k) = conj (dftN s (fun l => RtoC (x l)) k).
Proof.
  intros P I. unfold dftN. rewrite cbsum_conj. apply cbsum_ext. intros l Hl. rewrite chi_tneg, conj_mul by assumption. f_equal.
  apply C_eq; cbn; ring.
Qed.
Lemma bsum_tneg s f : pos s -> bsum s (fun l => f (tneg s l)) = bsum s f.
Proof.
  intros P. apply (bsum_reindex s s (tneg s) (tneg s)); intros l Hl; (split; [now apply tneg_inb|now apply tneg_tneg]).
Qed.

(** sums over half of the last axis (the real transforms) *)
Lemma bsum_snoc s n f : bsum (s ++ [n]) f = bsum s (fun l => rsum n (fun k => f (l ++ [k]))).
Proof. revert f. induction s as [|m s IH]; intros f; cbn [app bsum]; [reflexivity|]. apply rsum_ext. intros i _. apply IH. Qed.
Lemma tneg_snoc s l n k : length l = length s -> tneg (s ++ [n]) (l ++ [k]) = tneg s l ++ [imod n (- Z.of_nat k)].
Proof.
  unfold tneg. revert l. induction s as [|m s IH]; intros [|i l] H; simpl in H; try lia; [reflexivity|]. cbn [app zl map tor]. f_equal. apply IH. lia.
Qed.
Lemma inb_snoc s n l k : inb s l -> (k < n)%nat -> inb (s ++ [n]) (l ++ [k]).
Proof. intros I H. apply Forall2_app; [exact I|]. constructor; [exact H|constructor]. Qed.
Definition hw (M k : nat) : R := if (Nat.eqb k 0 || Nat.eqb k (M - 1))%bool then 1 else 2.
Lemma rsum_half m F : (0 < m)%nat -> (forall k, (0 < k < 2 * m)%nat -> F (2 * m - k)%nat = F k) ->
  rsum (m + 1) (fun k => hw (m + 1) k * F k) = rsum (2 * m) F.
Proof.
  intros Hm H. replace (2 * m)%nat with (m + m)%nat in * by lia. rewrite rsum_app. rewrite rsum_app with (n := m). cbn [rsum].
  destruct m as [|m]; [lia|]. rewrite !rsum_S_l.
  replace (hw (S m + 1) 0) with 1 by reflexivity. replace (hw (S m + 1) (S m + 0)) with 1.
  2:{ unfold hw. replace (S m + 1 - 1)%nat with (S m) by lia. rewrite Nat.add_0_r, Nat.eqb_refl, orb_true_r. reflexivity. }
  rewrite (rsum_ext m (fun i => hw (S m + 1) (S i) * F (S i)) (fun i => F (S i) + F (S i))).
  2:{ intros i Hi. unfold hw. replace (Nat.eqb (S i) 0) with false by reflexivity. destruct (Nat.eqb_spec (S i) (S m + 1 - 1)); [lia|]. cbn [orb]. ring. }
  rewrite rsum_plus. replace (S m + 0)%nat with (S m) by lia.
  rewrite (rsum_rev m (fun i => F (S m + S i)%nat)).
  rewrite (rsum_ext m (fun i => F (S m + S (m - 1 - i))%nat) (fun i => F (S i))).
  2:{ intros i Hi. rewrite <- (H (S i)) by lia. f_equal. lia. }
  ring.
Qed.
Lemma last_snoc {A} (l : list A) k d : last (l ++ [k]) d = k.
Proof. apply last_last. Qed.
Theorem bsum_half s m f : pos s -> (0 < m)%nat -> (forall k, inb (s ++ [2 * m]%nat) k -> f (tneg (s ++ [2 * m]%nat) k) = f k) ->
  bsum (s ++ [m + 1]%nat) (fun k => hw (m + 1) (last k 0%nat) * f k) = bsum (s ++ [2 * m]%nat) f.
Proof.
  intros P Hm H. rewrite !bsum_snoc. rewrite !bsum_rsum.
  set (F := fun k => bsum s (fun l => f (l ++ [k]))).
  rewrite (rsum_ext (m + 1) _ (fun k => hw (m + 1) k * F k)).
  2:{ intros k Hk. unfold F. rewrite <- bsum_scal. apply bsum_ext. intros l Hl. now rewrite last_snoc. }
  apply rsum_half; [exact Hm|]. intros k Hk. unfold F.
  rewrite <- (bsum_tneg s (fun l => f (l ++ [(2 * m - k)%nat]))) by exact P. apply bsum_ext. intros l Hl.
  rewrite <- (H (l ++ [k])) by (apply inb_snoc; [exact Hl|lia]). rewrite tneg_snoc by (now apply inb_length). f_equal. f_equal.
  replace (2 * m - k)%nat with (imod (2 * m) (- Z.of_nat k)); [reflexivity|].
  unfold imod. replace (- Z.of_nat k)%Z with (Z.of_nat (2 * m - k) + (-1) * Z.of_nat (2 * m))%Z by lia. rewrite Z.mod_add by lia. rewrite Z.mod_small by lia. lia.
Qed.
