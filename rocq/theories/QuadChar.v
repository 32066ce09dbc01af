(** Sums over the residues modulo an odd prime and the quadratic character: a small library with no model content. *)
From Coq Require Import Reals Lra Lia List ZArith Znumtheory Permutation FinFun.
From Verif Require Import Sums Arrays OperatorsLayoutProps Reindex.
Import ListNotations.
Open Scope R_scope.

Definition zs (p : nat) (g : Z -> R) : R := rsum p (fun i => g (Z.of_nat i)).
Definition periodic (p : nat) (g : Z -> R) : Prop := forall a b, (Z.of_nat p | a - b)%Z -> g a = g b.

Section S.
Variable p : nat.
Hypothesis Pr : prime (Z.of_nat p).
Hypothesis Odd : (2 < p)%nat.
Let P := Z.of_nat p.
Lemma P_pos : (2 < P)%Z. Proof. unfold P. lia. Qed.

Lemma zs_ext f g : (forall z, (0 <= z < P)%Z -> f z = g z) -> zs p f = zs p g.
Proof. intros H. apply rsum_ext. intros i Hi. apply H. unfold P. lia. Qed.
Lemma zs_ext' f g : (forall z, f z = g z) -> zs p f = zs p g. Proof. intros H. apply zs_ext. auto. Qed.
Lemma zs_const c : zs p (fun _ => c) = INR p * c. Proof. unfold zs. apply rsum_const. Qed.
Lemma zs_plus f g : zs p (fun z => f z + g z) = zs p f + zs p g. Proof. unfold zs. apply rsum_plus. Qed.
Lemma zs_minus f g : zs p (fun z => f z - g z) = zs p f - zs p g. Proof. unfold zs. apply rsum_minus. Qed.
Lemma zs_scal c f : zs p (fun z => c * f z) = c * zs p f. Proof. unfold zs. apply rsum_scal. Qed.
Lemma zs_swap (f : Z -> Z -> R) : zs p (fun a => zs p (fun b => f a b)) = zs p (fun b => zs p (fun a => f a b)). Proof. unfold zs. apply rsum_swap. Qed.
Lemma divide_mod a : (P | a - a mod P)%Z.
Proof. exists (a / P)%Z. pose proof P_pos. pose proof (Z.div_mod a P ltac:(lia)). lia. Qed.
Lemma small_eq a b : (0 <= a < P)%Z -> (0 <= b < P)%Z -> (P | a - b)%Z -> a = b.
Proof. intros Ha Hb [q E]. assert (q = 0)%Z by nia. subst. lia. Qed.
Lemma zs_perm g (s : Z -> Z) : periodic p g -> (forall a b, (P | s a - s b)%Z -> (P | a - b)%Z) -> zs p (fun z => g (s z)) = zs p g.
Proof.
  intros G I. pose proof P_pos as HP. set (t := fun i => Z.to_nat (s (Z.of_nat i) mod P)).
  assert (Ht : forall i, Z.of_nat (t i) = (s (Z.of_nat i) mod P)%Z) by (intros i; unfold t; rewrite Z2Nat.id; [reflexivity|apply Z.mod_pos_bound; lia]).
  unfold zs. rewrite (rsum_ext p _ (fun i => (fun j => g (Z.of_nat j)) (t i))).
  2:{ intros i Hi. cbv beta. rewrite Ht. apply G. apply divide_mod. }
  rewrite <- (lsum_seq p (fun i => g (Z.of_nat i))), <- (lsum_seq p (fun i => (fun j => g (Z.of_nat j)) (t i))). rewrite <- (lsum_map t (seq 0 p) (fun j => g (Z.of_nat j))). apply lsum_perm.
  apply NoDup_Permutation_bis.
  - apply NoDup_map_inj; [|apply seq_NoDup]. intros x y Hx Hy E. apply in_seq in Hx, Hy. apply Nat2Z.inj. apply small_eq; [unfold P; lia|unfold P; lia|].
    apply I. apply (f_equal Z.of_nat) in E. rewrite !Ht in E. pose proof (divide_mod (s (Z.of_nat x))) as D1. pose proof (divide_mod (s (Z.of_nat y))) as D2. rewrite E in D1.
    pose proof (Z.divide_sub_r _ _ _ D1 D2) as D. replace (s (Z.of_nat x) - s (Z.of_nat y))%Z with (s (Z.of_nat x) - s (Z.of_nat y) mod P - (s (Z.of_nat y) - s (Z.of_nat y) mod P))%Z by lia. exact D.
  - rewrite map_length. lia.
  - intros j Hj. apply in_map_iff in Hj as (i & <- & Hi). apply in_seq. pose proof (Ht i) as Q. pose proof (Z.mod_pos_bound (s (Z.of_nat i)) P ltac:(lia)). unfold P in *. lia.
Qed.
Lemma zs_shift g c : periodic p g -> zs p (fun z => g (z + c)%Z) = zs p g.
Proof. intros G. apply (zs_perm g (fun z => z + c)%Z G). intros a b H. replace (a - b)%Z with (a + c - (b + c))%Z by lia. exact H. Qed.

(** indicators of congruences *)
Definition ind (a b : Z) : R := if Z.eqb ((a - b) mod P) 0 then 1 else 0.
Lemma ind_spec a b : ((P | a - b)%Z /\ ind a b = 1) \/ (~ (P | a - b)%Z /\ ind a b = 0).
Proof.
  pose proof P_pos. unfold ind. destruct (Z.eqb_spec ((a - b) mod P) 0) as [E|E]; [left|right]; split; try reflexivity.
  - apply Z.mod_divide; [lia|exact E].
  - intros D. apply E. apply Z.mod_divide; [lia|exact D].
Qed.
Lemma ind_yes a b : (P | a - b)%Z -> ind a b = 1. Proof. intros H. destruct (ind_spec a b) as [[_ E]|[N _]]; [exact E|contradiction]. Qed.
Lemma ind_no a b : ~ (P | a - b)%Z -> ind a b = 0. Proof. intros H. destruct (ind_spec a b) as [[N _]|[_ E]]; [contradiction|exact E]. Qed.
Lemma ind_refl a : ind a a = 1. Proof. apply ind_yes. exists 0%Z. lia. Qed.
Lemma ind_iff a b c d : ((P | a - b)%Z <-> (P | c - d)%Z) -> ind a b = ind c d.
Proof. intros [H1 H2]. destruct (ind_spec a b) as [[D ->]|[N ->]]; symmetry; [apply ind_yes; auto|apply ind_no; auto]. Qed.
Lemma ind_sym a b : ind a b = ind b a.
Proof. apply ind_iff. split; intros [q E]; exists (- q)%Z; lia. Qed.
Lemma ind_periodic_l b : periodic p (fun z => ind z b).
Proof. intros x y H. apply ind_iff. fold P in H. split; intros D; [replace (y - b)%Z with (x - b - (x - y))%Z by lia; now apply Z.divide_sub_r|replace (x - b)%Z with (y - b + (x - y))%Z by lia; now apply Z.divide_add_r]. Qed.
Lemma ind_periodic_r a : periodic p (fun z => ind a z).
Proof. intros x y H. rewrite !(ind_sym a). now apply ind_periodic_l. Qed.
Lemma zs_ind (g : Z -> R) c : periodic p g -> zs p (fun z => ind z c * g z) = g c.
Proof.
  intros G. pose proof P_pos as HP. set (k := Z.to_nat (c mod P)).
  assert (Hk : Z.of_nat k = (c mod P)%Z) by (unfold k; rewrite Z2Nat.id; [reflexivity|apply Z.mod_pos_bound; lia]). pose proof (Z.mod_pos_bound c P ltac:(lia)) as Bk.
  unfold zs. rewrite (rsum_ext p _ (fun i => g c * (if Nat.eqb i k then 1 else 0))).
  - rewrite rsum_scal. assert (E : rsum p (fun i => if Nat.eqb i k then 1 else 0) = 1).
    { rewrite (rsum_single p _ k); [now rewrite Nat.eqb_refl|unfold P in *; lia|]. intros i _ Ne. destruct (Nat.eqb_spec i k); [contradiction|reflexivity]. }
    rewrite E. ring.
  - intros i Hi. destruct (Nat.eqb_spec i k) as [->|N].
    + rewrite ind_yes; [rewrite (G (Z.of_nat k) c); [ring|]|]; fold P; rewrite Hk; replace (c mod P - c)%Z with (- (c - c mod P))%Z by lia; apply Z.divide_opp_r, divide_mod.
    + rewrite ind_no; [ring|]. intros D. apply N. apply Nat2Z.inj. rewrite Hk. apply small_eq; [unfold P; lia|lia|].
      replace (Z.of_nat i - c mod P)%Z with (Z.of_nat i - c + (c - c mod P))%Z by lia. apply Z.divide_add_r; [exact D|apply divide_mod].
Qed.
Lemma zs_ind1 c : zs p (fun z => ind z c) = 1.
Proof. rewrite (zs_ext' _ (fun z => ind z c * 1)) by (intros; ring). apply (zs_ind (fun _ => 1)). intros a b _. reflexivity. Qed.

(** the number of square roots, and the character *)
Definition roots (z : Z) : R := zs p (fun y => ind (y * y) z).
Definition chi (z : Z) : R := roots z - 1.
Lemma periodic_chi : periodic p chi.
Proof. intros a b H. unfold chi, roots. f_equal. apply zs_ext'. intros y. now apply ind_periodic_r. Qed.
Lemma prime_mult a b : (P | a * b)%Z -> (P | a)%Z \/ (P | b)%Z. Proof. apply prime_mult, Pr. Qed.
Lemma not_div_2 : ~ (P | 2)%Z.
Proof. intros D. apply Z.divide_pos_le in D; [pose proof P_pos; lia|lia]. Qed.
Lemma chi_0 : chi 0 = 0.
Proof.
  unfold chi, roots. rewrite (zs_ext' _ (fun y => ind y 0)); [rewrite zs_ind1; ring|]. intros y. apply ind_iff. rewrite !Z.sub_0_r. split; [intros D; destruct (prime_mult _ _ D); assumption|intros D; now apply Z.divide_mul_l].
Qed.
Lemma chi_square t z : ~ (P | z)%Z -> (P | t * t - z)%Z -> chi z = 1.
Proof.
  intros Nz Ht. assert (Nt : ~ (P | t)%Z). { intros D. apply Nz. replace z with (t * t - (t * t - z))%Z by lia. apply Z.divide_sub_r; [now apply Z.divide_mul_l|exact Ht]. }
  unfold chi, roots. rewrite (zs_ext' _ (fun y => ind y t + ind y (- t))).
  - rewrite zs_plus, !zs_ind1. ring.
  - intros y. destruct (ind_spec y t) as [[D1 ->]|[N1 ->]]; destruct (ind_spec y (- t)) as [[D2 ->]|[N2 ->]].
    + exfalso. assert (D : (P | 2 * t)%Z) by (replace (2 * t)%Z with (y - - t - (y - t))%Z by lia; now apply Z.divide_sub_r). destruct (prime_mult _ _ D); [now apply not_div_2|contradiction].
    + rewrite ind_yes; [ring|]. replace (y * y - z)%Z with ((y - t) * (y + t) + (t * t - z))%Z by ring. apply Z.divide_add_r; [now apply Z.divide_mul_l|exact Ht].
    + rewrite ind_yes; [ring|]. replace (y * y - z)%Z with ((y - t) * (y - - t) + (t * t - z))%Z by ring. apply Z.divide_add_r; [now apply Z.divide_mul_r|exact Ht].
    + rewrite ind_no; [ring|]. intros D. assert (E : (P | (y - t) * (y - - t))%Z) by (replace ((y - t) * (y - - t))%Z with (y * y - z - (t * t - z))%Z by ring; now apply Z.divide_sub_r).
      destruct (prime_mult _ _ E); contradiction.
Qed.
Lemma chi_nonsquare z : (forall t, ~ (P | t * t - z)%Z) -> chi z = -1.
Proof. intros N. unfold chi, roots. rewrite (zs_ext' _ (fun _ => 0)); [rewrite zs_const; ring|]. intros y. apply ind_no, N. Qed.
(** decidable, by search *)
Lemma square_dec z : (exists t, (P | t * t - z)%Z) \/ (forall t, ~ (P | t * t - z)%Z).
Proof.
  pose proof P_pos as HP.
  assert (D : forall n, (exists t, (0 <= t < Z.of_nat n)%Z /\ (P | t * t - z)%Z) \/ (forall t, (0 <= t < Z.of_nat n)%Z -> ~ (P | t * t - z)%Z)).
  { induction n as [|n [ (t & Ht & D)|N]]; [right; intros; lia|left; exists t; split; [lia|exact D]|].
    destruct (ind_spec (Z.of_nat n * Z.of_nat n) z) as [[D _]|[X _]]; [left; exists (Z.of_nat n); split; [lia|exact D]|right].
    intros t Ht. destruct (Z.eq_dec t (Z.of_nat n)) as [->|]; [exact X|apply N; lia]. }
  destruct (D p) as [(t & _ & H)|N]; [left; now exists t|right]. intros t H. apply (N (t mod P)%Z); [apply Z.mod_pos_bound; lia|].
  pose proof (divide_mod t) as [q Hq]. replace (t mod P)%Z with (t - q * P)%Z by lia. replace ((t - q * P) * (t - q * P) - z)%Z with (t * t - z + (q * P - 2 * t) * q * P)%Z by ring. apply Z.divide_add_r; [exact H|]. exists ((q * P - 2 * t) * q)%Z. ring.
Qed.
Lemma chi_cases z : ~ (P | z)%Z -> (chi z = 1 /\ exists t, (P | t * t - z)%Z) \/ (chi z = -1 /\ forall t, ~ (P | t * t - z)%Z).
Proof. intros N. destruct (square_dec z) as [[t H]|H]; [left|right]; split; eauto using chi_square, chi_nonsquare. Qed.
Lemma chi_bound z : -1 <= chi z <= 1.
Proof.
  destruct (ind_spec z 0) as [[D _]|[N _]]; rewrite Z.sub_0_r in *.
  - rewrite (periodic_chi z 0%Z) by (now rewrite Z.sub_0_r). rewrite chi_0. lra.
  - destruct (chi_cases z N) as [[-> _]|[-> _]]; lra.
Qed.
Lemma chi_sum : zs p chi = 0.
Proof.
  unfold chi. rewrite zs_minus, zs_const. unfold roots. rewrite zs_swap. rewrite (zs_ext' _ (fun _ => 1)); [rewrite zs_const; ring|].
  intros y. rewrite (zs_ext' _ (fun z => ind z (y * y))) by (intros; apply ind_sym). apply zs_ind1.
Qed.
Lemma inverse t : ~ (P | t)%Z -> exists u, (P | t * u - 1)%Z.
Proof.
  intros N. assert (R : rel_prime t P) by (apply rel_prime_sym, prime_rel_prime; [exact Pr|exact N]).
  apply rel_prime_bezout in R. destruct R as [u v E]. exists u. exists (- v)%Z. lia.
Qed.
Lemma chi_mult_square t a b : ~ (P | a)%Z -> (P | t * t - a)%Z -> chi (a * b) = chi b.
Proof.
  intros Na Ht. assert (Nt : ~ (P | t)%Z). { intros D. apply Na. replace a with (t * t - (t * t - a))%Z by lia. apply Z.divide_sub_r; [now apply Z.divide_mul_l|exact Ht]. }
  unfold chi, roots. f_equal. symmetry.
  transitivity (zs p (fun y => ind ((t * y) * (t * y)) (a * b))).
  - apply zs_ext'. intros y. apply ind_iff. split; intros D.
    + replace (t * y * (t * y) - a * b)%Z with (t * t * (y * y - b) + (t * t - a) * b)%Z by ring. apply Z.divide_add_r; [now apply Z.divide_mul_r|now apply Z.divide_mul_l].
    + assert (E : (P | t * t * (y * y - b))%Z) by (replace (t * t * (y * y - b))%Z with (t * y * (t * y) - a * b - (t * t - a) * b)%Z by ring; apply Z.divide_sub_r; [exact D|now apply Z.divide_mul_l]).
      destruct (prime_mult _ _ E) as [E'|E']; [|exact E']. destruct (prime_mult _ _ E'); contradiction.
  - apply (zs_perm (fun y => ind (y * y) (a * b)) (fun y => t * y)%Z).
    + intros x y D. apply ind_iff. fold P in D. split; intros Q; [replace (y * y - a * b)%Z with (x * x - a * b - (x - y) * (x + y))%Z by ring|replace (x * x - a * b)%Z with (y * y - a * b + (x - y) * (x + y))%Z by ring]; [apply Z.divide_sub_r|apply Z.divide_add_r]; try assumption; now apply Z.divide_mul_l.
    + intros x y D. replace (t * x - t * y)%Z with (t * (x - y))%Z in D by ring. destruct (prime_mult _ _ D); [contradiction|assumption].
Qed.
Lemma chi_mult a b : chi (a * b) = chi a * chi b.
Proof.
  destruct (ind_spec a 0) as [[Da _]|[Na _]]; rewrite Z.sub_0_r in *.
  { rewrite (periodic_chi a 0%Z), chi_0 by (now rewrite Z.sub_0_r). rewrite (periodic_chi (a * b)%Z 0%Z), chi_0 by (rewrite Z.sub_0_r; now apply Z.divide_mul_l). ring. }
  destruct (ind_spec b 0) as [[Db _]|[Nb _]]; rewrite Z.sub_0_r in *.
  { rewrite (periodic_chi b 0%Z), chi_0 by (now rewrite Z.sub_0_r). rewrite (periodic_chi (a * b)%Z 0%Z), chi_0 by (rewrite Z.sub_0_r; now apply Z.divide_mul_r). ring. }
  destruct (chi_cases a Na) as [[-> [t Ht]]|[Ea NSa]]; [rewrite (chi_mult_square t a b Na Ht); ring|].
  destruct (chi_cases b Nb) as [[-> [t Ht]]|[Eb NSb]]; [rewrite Z.mul_comm, (chi_mult_square t b a Nb Ht); ring|].
  (* both are non-squares: sum of chi z + chi (a z) over z is 0 and no term is positive *)
  assert (S0 : zs p (fun z => - (chi z + chi (a * z))) = 0).
  { rewrite (zs_ext' _ (fun z => -1 * (chi z + chi (a * z)))) by (intros; ring). rewrite zs_scal, zs_plus, chi_sum.
    rewrite (zs_perm chi (fun z => a * z)%Z periodic_chi), chi_sum; [ring|]. intros x y D. replace (a * x - a * y)%Z with (a * (x - y))%Z in D by ring. destruct (prime_mult _ _ D); [contradiction|assumption]. }
  assert (T : forall z, 0 <= - (chi z + chi (a * z))).
  { intros z. destruct (ind_spec z 0) as [[D _]|[N _]]; rewrite Z.sub_0_r in *.
    - rewrite (periodic_chi z 0%Z), chi_0 by (now rewrite Z.sub_0_r). rewrite (periodic_chi (a * z)%Z 0%Z), chi_0 by (rewrite Z.sub_0_r; now apply Z.divide_mul_r). lra.
    - destruct (chi_cases z N) as [[-> [t Ht]]|[-> _]]; [rewrite Z.mul_comm, (chi_mult_square t z a N Ht), Ea; lra|]. pose proof (chi_bound (a * z)%Z). lra. }
  pose proof P_pos as HP. set (k := Z.to_nat (b mod P)). assert (Hk : Z.of_nat k = (b mod P)%Z) by (unfold k; rewrite Z2Nat.id; [reflexivity|apply Z.mod_pos_bound; lia]).
  pose proof (Z.mod_pos_bound b P ltac:(lia)) as Bk.
  pose proof (rsum_nonneg_zero p _ (fun j _ => T (Z.of_nat j)) S0 k ltac:(unfold P in *; lia)) as E. cbv beta in E. rewrite Hk in E.
  assert (D1 : (P | b mod P - b)%Z) by (replace (b mod P - b)%Z with (- (b - b mod P))%Z by lia; apply Z.divide_opp_r, divide_mod).
  rewrite (periodic_chi _ _ D1) in E. rewrite (periodic_chi (a * (b mod P))%Z (a * b)%Z) in E; [rewrite Ea, Eb in *; lra|].
  replace (a * (b mod P) - a * b)%Z with (a * (b mod P - b))%Z by ring. now apply Z.divide_mul_r.
Qed.
Lemma chi_neg_pair a b : chi (- a) * chi (- b) = chi a * chi b.
Proof. rewrite <- !chi_mult. f_equal. ring. Qed.
Lemma chi_zero_iff a : (P | a)%Z -> chi a = 0. Proof. intros D. rewrite (periodic_chi a 0%Z), chi_0 by (now rewrite Z.sub_0_r). reflexivity. Qed.
Lemma chi_sq a : ~ (P | a)%Z -> chi a * chi a = 1. Proof. intros N. destruct (chi_cases a N) as [[-> _]|[-> _]]; ring. Qed.

(** the autocorrelation of the character *)
Lemma chi_corr k : zs p (fun z => chi z * chi (z + k)%Z) = INR p * ind k 0 - 1.
Proof.
  destruct (ind_spec k 0) as [[D ->]|[N ->]]; rewrite Z.sub_0_r in *.
  - rewrite (zs_ext' _ (fun z => 1 - ind z 0)).
    + rewrite zs_minus, zs_const, zs_ind1. ring.
    + intros z. rewrite (periodic_chi (z + k)%Z z) by (replace (z + k - z)%Z with k by ring; exact D).
      destruct (ind_spec z 0) as [[Dz ->]|[Nz ->]]; rewrite Z.sub_0_r in *; [rewrite (chi_zero_iff z Dz); ring|rewrite (chi_sq z Nz); ring].
  - assert (RR : zs p (fun z => roots z * roots (z + k)%Z) = INR p - 1).
    { transitivity (zs p (fun y => zs p (fun w => ind (w * w) (y * y + k)))).
      - rewrite (zs_ext' _ (fun z => zs p (fun y => ind z (y * y) * roots (z + k)%Z))).
        + rewrite zs_swap. apply zs_ext'. intros y. apply (zs_ind (fun z => roots (z + k)%Z)).
          intros a b D. unfold roots. apply zs_ext'. intros w. apply ind_periodic_r. fold P. replace (a + k - (b + k))%Z with (a - b)%Z by ring. exact D.
        + intros z. unfold roots at 1. rewrite Rmult_comm, <- zs_scal. apply zs_ext'. intros y. rewrite (ind_sym z). ring.
      - transitivity (zs p (fun y => zs p (fun a => ind (a * (2 * y + a)) k))).
        + apply zs_ext'. intros y. rewrite <- (zs_shift (fun w => ind (w * w) (y * y + k)) y).
          * apply zs_ext'. intros a. apply ind_iff. replace ((a + y) * (a + y) - (y * y + k))%Z with (a * (2 * y + a) - k)%Z by ring. reflexivity.
          * intros a b D. fold P in D. apply ind_iff. split; intros Q; [replace (b * b - (y * y + k))%Z with (a * a - (y * y + k) - (a - b) * (a + b))%Z by ring; apply Z.divide_sub_r|replace (a * a - (y * y + k))%Z with (b * b - (y * y + k) + (a - b) * (a + b))%Z by ring; apply Z.divide_add_r]; try assumption; now apply Z.divide_mul_l.
        + rewrite zs_swap. rewrite (zs_ext' _ (fun a => 1 - ind a 0)).
          * rewrite zs_minus, zs_const, zs_ind1. ring.
          * intros a. destruct (ind_spec a 0) as [[Da ->]|[Na ->]]; rewrite Z.sub_0_r in *.
            -- rewrite (zs_ext' _ (fun _ => 0)); [rewrite zs_const; ring|]. intros y. apply ind_no. intros Q. apply N. replace k with (a * (2 * y + a) - (a * (2 * y + a) - k))%Z by ring. apply Z.divide_sub_r; [now apply Z.divide_mul_l|exact Q].
            -- rewrite (zs_perm (fun z => ind z k) (fun y => a * (2 * y + a))%Z (ind_periodic_l k)), zs_ind1; [ring|].
               intros x y Q. replace (a * (2 * x + a) - a * (2 * y + a))%Z with (a * (2 * (x - y)))%Z in Q by ring. destruct (prime_mult _ _ Q) as [Q'|Q']; [contradiction|]. destruct (prime_mult _ _ Q') as [Q2|Q2]; [destruct (not_div_2 Q2)|exact Q2]. }
    assert (SR : zs p roots = INR p). { pose proof chi_sum as S. unfold chi in S. rewrite zs_minus, zs_const in S. lra. }
    assert (PR : periodic p roots). { intros a b D. pose proof (periodic_chi a b D) as E. unfold chi in E. lra. }
    unfold chi. rewrite (zs_ext' _ (fun z => roots z * roots (z + k)%Z - roots z - roots (z + k)%Z + 1)) by (intros; ring).
    rewrite zs_plus, !zs_minus, RR, zs_const, SR, (zs_shift roots k PR), SR. ring.
Qed.
End S.
