(** C85: the encoding and decoding MURA masks have a two-valued periodic cross-correlation, for every odd prime side. *)
From Coq Require Import Reals Lra Lia List ZArith Bool Znumtheory.
From Verif Require Import Sums PyErr Arrays Rounding Reindex QuadChar StructIllumModel.
Import ListNotations.
Open Scope R_scope.

Section S.
Variable p : nat.
Hypothesis Pr : prime (Z.of_nat p).
Hypothesis Odd : (2 < p)%nat.
Notation chi := (chi p).
Notation ind := (ind p).
Definition dl (z : Z) : R := ind z 0.
Definition vv (z : Z) : R := 1 - dl z.
Definition oo (z : Z) : R := 1.
Definition cc (f g : Z -> R) (k : Z) : R := zs p (fun z => f z * g (z + k)%Z).
Lemma per_dl : periodic p dl. Proof. apply ind_periodic_l; assumption. Qed.
Lemma per_vv : periodic p vv. Proof. intros a b H. unfold vv. now rewrite (per_dl a b H). Qed.
Lemma sum_dl : zs p dl = 1. Proof. apply zs_ind1; assumption. Qed.
Lemma sum_vv : zs p vv = INR p - 1. Proof. unfold vv. rewrite (zs_minus p (fun _ => 1) dl), zs_const, sum_dl. ring. Qed.
Lemma sum_oo : zs p oo = INR p. Proof. unfold oo. rewrite zs_const. ring. Qed.
Lemma sum_chi : zs p chi = 0. Proof. apply chi_sum; assumption. Qed.
Lemma cc_oo_l g k : periodic p g -> cc oo g k = zs p g.
Proof. intros G. unfold cc, oo. rewrite (zs_ext' p Odd _ (fun z => g (z + k)%Z)) by (intros; ring). now apply zs_shift. Qed.
Lemma cc_oo_r f k : cc f oo k = zs p f.
Proof. unfold cc, oo. apply (zs_ext' p Odd). intros. ring. Qed.
Lemma per_shift g k : periodic p g -> periodic p (fun z => g (z + k)%Z).
Proof. intros G a b H. apply G. replace (a + k - (b + k))%Z with (a - b)%Z by ring. exact H. Qed.
Lemma cc_dl_l g k : periodic p g -> cc dl g k = g k.
Proof. intros G. unfold cc, dl. rewrite (zs_ind p Odd (fun z => g (z + k)%Z) 0%Z (per_shift g k G)). now rewrite Z.add_0_l. Qed.
Lemma cc_dl_r f k : periodic p f -> cc f dl k = f (- k)%Z.
Proof.
  intros G. unfold cc, dl. rewrite (zs_ext' p Odd _ (fun z => ind z (- k)%Z * f z)); [now apply zs_ind|].
  intros z. rewrite Rmult_comm. f_equal. apply ind_iff; [assumption|]. replace (z + k - 0)%Z with (z - - k)%Z by ring. reflexivity.
Qed.
Lemma dl_neg k : dl (- k)%Z = dl k.
Proof. unfold dl. apply ind_iff; [assumption|]. rewrite !Z.sub_0_r. apply Z.divide_opp_r. Qed.
Lemma cc_vv_l g k : periodic p g -> cc vv g k = zs p g - g k.
Proof.
  intros G. unfold cc, vv. rewrite (zs_ext' p Odd _ (fun z => oo z * g (z + k)%Z - dl z * g (z + k)%Z)) by (intros; unfold oo; ring).
  rewrite zs_minus. fold (cc oo g k) (cc dl g k). now rewrite cc_oo_l, cc_dl_l.
Qed.
Lemma cc_vv_r f k : periodic p f -> cc f vv k = zs p f - f (- k)%Z.
Proof.
  intros G. unfold cc, vv. rewrite (zs_ext' p Odd _ (fun z => f z * oo (z + k)%Z - f z * dl (z + k)%Z)) by (intros; unfold oo; ring).
  rewrite zs_minus. fold (cc f oo k) (cc f dl k). now rewrite cc_oo_r, cc_dl_r.
Qed.
Lemma cc_chi k : cc chi chi k = INR p * dl k - 1. Proof. apply chi_corr; assumption. Qed.

(** the double sums *)
Definition DD (F : Z -> Z -> R) : R := zs p (fun a => zs p (fun b => F a b)).
Lemma DD_ext F G : (forall a b, F a b = G a b) -> DD F = DD G.
Proof. intros H. apply (zs_ext' p Odd). intros a. apply (zs_ext' p Odd). intros b. apply H. Qed.
Lemma DD_plus F G : DD (fun a b => F a b + G a b) = DD F + DD G.
Proof. unfold DD. transitivity (zs p (fun a => zs p (fun b => F a b) + zs p (fun b => G a b))); [|exact (zs_plus p (fun a => zs p (fun b => F a b)) (fun a => zs p (fun b => G a b)))]. apply (zs_ext' p Odd). intros a. apply (zs_plus p (F a) (G a)). Qed.
Lemma DD_scal c F : DD (fun a b => c * F a b) = c * DD F.
Proof. unfold DD. transitivity (zs p (fun a => c * zs p (fun b => F a b))); [|exact (zs_scal p c (fun a => zs p (fun b => F a b)))]. apply (zs_ext' p Odd). intros a. apply (zs_scal p c (F a)). Qed.
Lemma DD_sep f g : DD (fun a b => f a * g b) = zs p f * zs p g.
Proof. unfold DD. rewrite (zs_ext' p Odd _ (fun a => zs p g * f a)); [rewrite zs_scal; ring|]. intros a. rewrite (zs_scal p (f a) g). ring. Qed.
Lemma DD_cc f f' g g' k l : DD (fun a b => f a * f' b * (g (a + k)%Z * g' (b + l)%Z)) = cc f g k * cc f' g' l.
Proof. rewrite (DD_ext _ (fun a b => (f a * g (a + k)%Z) * (f' b * g' (b + l)%Z))) by (intros; ring). apply (DD_sep (fun a => f a * g (a + k)%Z)). Qed.

Definition BB (a b : Z) : R := chi a * chi b + vv a * dl b - dl a * oo b.
Definition GG (a b : Z) : R := chi a * chi b + vv a * dl b - dl a * oo b + 2 * (dl a * dl b).
Lemma chi_neg k l : chi (- k)%Z * chi (- l)%Z = chi k * chi l. Proof. apply chi_neg_pair; assumption. Qed.

Lemma corr_BG k l : DD (fun a b => BB a b * GG (a + k)%Z (b + l)%Z) = INR p * INR p * (dl k * dl l) - dl k * dl l - 1.
Proof.
  pose proof (periodic_chi p Odd) as Pc. pose proof per_dl as Pd. pose proof per_vv as Pv.
  rewrite (DD_ext _ (fun a b =>
    chi a * chi b * (chi (a + k)%Z * chi (b + l)%Z) + (chi a * chi b * (vv (a + k)%Z * dl (b + l)%Z) + (-1 * (chi a * chi b * (dl (a + k)%Z * oo (b + l)%Z)) + (2 * (chi a * chi b * (dl (a + k)%Z * dl (b + l)%Z)) +
   (vv a * dl b * (chi (a + k)%Z * chi (b + l)%Z) + (vv a * dl b * (vv (a + k)%Z * dl (b + l)%Z) + (-1 * (vv a * dl b * (dl (a + k)%Z * oo (b + l)%Z)) + (2 * (vv a * dl b * (dl (a + k)%Z * dl (b + l)%Z)) +
   (-1 * (dl a * oo b * (chi (a + k)%Z * chi (b + l)%Z)) + (-1 * (dl a * oo b * (vv (a + k)%Z * dl (b + l)%Z)) + (dl a * oo b * (dl (a + k)%Z * oo (b + l)%Z) + -2 * (dl a * oo b * (dl (a + k)%Z * dl (b + l)%Z))))))))))))))
    by (intros; unfold BB, GG; ring).
  rewrite !DD_plus, !DD_scal, !DD_cc.
  rewrite !cc_chi, ?(cc_vv_r chi), ?(cc_dl_r chi), ?(cc_oo_r chi), ?(cc_vv_l chi), ?(cc_dl_l chi), ?(cc_oo_l chi), sum_chi by assumption.
  rewrite ?(cc_vv_l vv), ?(cc_dl_l vv), ?(cc_dl_r vv), ?(cc_dl_l dl), ?(cc_vv_l dl), ?(cc_oo_l dl), ?(cc_oo_r dl), ?(cc_dl_l oo), sum_vv, sum_dl by (assumption || (intros ? ? ?; reflexivity)).
  rewrite ?cc_oo_r, sum_oo. pose proof (chi_neg k l) as E. unfold vv, oo. rewrite ?dl_neg.
  assert (Q : chi k * chi l = chi (- k)%Z * chi (- l)%Z) by (symmetry; exact E).
  assert (Ek : dl k = 0 \/ dl k = 1) by (unfold dl; destruct (ind_spec p Odd k 0) as [[_ ->]|[_ ->]]; auto).
  assert (El : dl l = 0 \/ dl l = 1) by (unfold dl; destruct (ind_spec p Odd l 0) as [[_ ->]|[_ ->]]; auto).
  destruct Ek as [->| ->], El as [->| ->]; nra.
Qed.

(** the bits of the masks in terms of the character *)
Lemma of_nat_mod a b : Z.of_nat (a mod b) = (Z.of_nat a mod Z.of_nat b)%Z. Proof. apply Nat2Z.inj_mod. Qed.
Lemma not_div_small i : (0 < i < p)%nat -> ~ (Z.of_nat p | Z.of_nat i)%Z.
Proof. intros H D. apply Z.divide_pos_le in D; lia. Qed.
Lemma mask_1d_chi i : (0 < i < p)%nat -> chi (Z.of_nat i) = if mask_1d p i then 1 else -1.
Proof.
  intros Hi. destruct (chi_cases p Pr Odd (Z.of_nat i) (not_div_small i Hi)) as [[-> [t Ht]]|[-> N]]; destruct (mask_1d p i) eqn:E; try reflexivity; exfalso.
  - unfold mask_1d in E. assert (X : existsb (fun k => Nat.eqb ((k * k) mod p) i) (seq 1 (p - 1)) = true); [|rewrite X in E; discriminate].
    apply existsb_exists. pose proof (Z.mod_pos_bound t (Z.of_nat p) ltac:(lia)) as Bt. exists (Z.to_nat (t mod Z.of_nat p)).
    assert (Ek : (Z.of_nat (Z.to_nat (t mod Z.of_nat p)) = t mod Z.of_nat p)%Z) by (apply Z2Nat.id; lia).
    assert (Em : ((t mod Z.of_nat p * (t mod Z.of_nat p)) mod Z.of_nat p = Z.of_nat i)%Z).
    { rewrite <- Z.mul_mod by lia. destruct Ht as [q Hq]. replace (t * t)%Z with (Z.of_nat i + q * Z.of_nat p)%Z by lia. rewrite Z.mod_add by lia. apply Z.mod_small. lia. }
    split.
    + apply in_seq. assert (t mod Z.of_nat p <> 0)%Z; [|lia]. intros Z0. rewrite Z0 in Em. rewrite Z.mul_0_l, Z.mod_0_l in Em; lia.
    + apply Nat.eqb_eq. apply Nat2Z.inj. rewrite of_nat_mod, Nat2Z.inj_mul, Ek. exact Em.
  - unfold mask_1d in E. apply existsb_exists in E as (k & Hk & Ek). apply Nat.eqb_eq in Ek. apply (f_equal Z.of_nat) in Ek. rewrite of_nat_mod, Nat2Z.inj_mul in Ek.
    apply (N (Z.of_nat k)). rewrite <- Ek. apply (divide_mod p Odd).
Qed.
Lemma dl_0 : dl 0 = 1. Proof. unfold dl. apply ind_refl; assumption. Qed.
Lemma dl_small i : (0 < i < p)%nat -> dl (Z.of_nat i) = 0.
Proof. intros H. unfold dl. apply ind_no; [assumption|]. rewrite Z.sub_0_r. now apply not_div_small. Qed.
Lemma enc_BB i j : (i < p)%nat -> (j < p)%nat -> b2r (enc_bit p i j) = (1 + BB (Z.of_nat i) (Z.of_nat j)) / 2.
Proof.
  intros Hi Hj. unfold enc_bit, BB, vv, oo. destruct (Nat.eqb_spec i 0) as [->|Ni].
  - change (Z.of_nat 0) with 0%Z. rewrite (chi_0 p Pr Odd), dl_0. cbn [b2r]. lra.
  - destruct (Nat.eqb_spec j 0) as [->|Nj].
    + change (Z.of_nat 0) with 0%Z. rewrite (chi_0 p Pr Odd), dl_0, (dl_small i) by lia. cbn [b2r]. lra.
    + rewrite (dl_small i), (dl_small j), !mask_1d_chi by lia. destruct (mask_1d p i), (mask_1d p j); cbn [b2r Bool.eqb]; lra.
Qed.
Lemma dec_GG i j : (i < p)%nat -> (j < p)%nat -> b2r (dec_bit p i j) = (1 + GG (Z.of_nat i) (Z.of_nat j)) / 2.
Proof.
  intros Hi Hj. assert (E : GG (Z.of_nat i) (Z.of_nat j) = BB (Z.of_nat i) (Z.of_nat j) + 2 * (dl (Z.of_nat i) * dl (Z.of_nat j))) by (unfold GG, BB; ring).
  rewrite E. unfold dec_bit. destruct (Nat.eqb_spec i 0) as [->|Ni]; [destruct (Nat.eqb_spec j 0) as [->|Nj]|]; cbn [andb].
  - change (Z.of_nat 0) with 0%Z. rewrite dl_0. unfold BB, vv. rewrite (chi_0 p Pr Odd), dl_0. unfold oo. cbn [b2r]. lra.
  - rewrite (enc_BB 0 j) by lia. rewrite (dl_small j) by lia. lra.
  - rewrite (enc_BB i j) by lia. rewrite (dl_small i) by lia. lra.
Qed.
Lemma GG_periodic a a' b b' : (Z.of_nat p | a - a')%Z -> (Z.of_nat p | b - b')%Z -> GG a b = GG a' b'.
Proof. intros H1 H2. unfold GG. rewrite (periodic_chi p Odd a a' H1), (periodic_chi p Odd b b' H2), (per_vv a a' H1), (per_dl a a' H1), (per_dl b b' H2). unfold oo. reflexivity. Qed.
Lemma DD_nat (F : nat -> nat -> R) (G : Z -> Z -> R) : (forall i j, (i < p)%nat -> (j < p)%nat -> F i j = G (Z.of_nat i) (Z.of_nat j)) -> rsum p (fun i => rsum p (fun j => F i j)) = DD G.
Proof. intros H. unfold DD, zs. apply rsum_ext. intros i Hi. apply rsum_ext. intros j Hj. now apply H. Qed.
Lemma sum_BB : DD BB = -1.
Proof.
  unfold BB. rewrite (DD_ext _ (fun a b => chi a * chi b + (vv a * dl b + -1 * (dl a * oo b)))) by (intros; ring).
  rewrite (DD_plus (fun a b => chi a * chi b)), (DD_plus (fun a b => vv a * dl b)), DD_scal, !DD_sep, sum_chi, sum_vv, sum_dl, sum_oo. ring.
Qed.
Lemma sum_GG : DD GG = 1.
Proof.
  rewrite (DD_ext GG (fun a b => BB a b + 2 * (dl a * dl b))) by (intros; unfold GG, BB; ring). rewrite DD_plus, DD_scal, DD_sep, sum_BB, sum_dl. ring.
Qed.
Lemma sum_const c : DD (fun _ _ => c) = INR p * INR p * c.
Proof. unfold DD. rewrite zs_const, zs_const. ring. Qed.
Lemma sum_GG_shift k l : DD (fun a b => GG (a + k)%Z (b + l)%Z) = 1.
Proof.
  rewrite <- sum_GG. unfold DD. rewrite (zs_ext' p Odd _ (fun a => zs p (fun b => GG (a + k)%Z b))).
  - apply (zs_shift p Odd (fun a => zs p (fun b => GG a b))). intros a b H. apply (zs_ext' p Odd). intros z. apply GG_periodic; [exact H|exists 0%Z; lia].
  - intros a. apply (zs_shift p Odd (fun b => GG (a + k)%Z b)). intros x y H. apply GG_periodic; [exists 0%Z; lia|exact H].
Qed.
Definition two_valued (lo hi : R) (k l : nat) : R := if (Nat.eqb k 0 && Nat.eqb l 0)%bool then hi else lo.
Lemma dl_dl k l : (k < p)%nat -> (l < p)%nat -> dl (Z.of_nat k) * dl (Z.of_nat l) = two_valued 0 1 k l.
Proof.
  intros Hk Hl. unfold two_valued. destruct (Nat.eqb_spec k 0) as [->|]; [destruct (Nat.eqb_spec l 0) as [->|]|]; cbn [andb]; change (Z.of_nat 0) with 0%Z; [rewrite dl_0; ring|rewrite (dl_small l) by lia; ring|rewrite (dl_small k) by lia; ring].
Qed.

(** *** C85 (a) *)
Theorem C85_mura_cross_correlation_two_valued k l : (k < p)%nat -> (l < p)%nat ->
  rsum p (fun i => rsum p (fun j => b2r (enc_bit p i j) * b2r (dec_bit p ((i + k) mod p) ((j + l) mod p)))) = two_valued ((INR p ^ 2 - 1) / 4) ((INR p ^ 2 - 1) / 2) k l.
Proof.
  intros Hk Hl.
  rewrite (DD_nat _ (fun a b => / 4 + (/ 4 * BB a b + (/ 4 * GG (a + Z.of_nat k)%Z (b + Z.of_nat l)%Z + / 4 * (BB a b * GG (a + Z.of_nat k)%Z (b + Z.of_nat l)%Z))))).
  - rewrite !DD_plus, !DD_scal, sum_const, sum_BB, sum_GG_shift, corr_BG.
    replace (INR p * INR p * (dl (Z.of_nat k) * dl (Z.of_nat l)) - dl (Z.of_nat k) * dl (Z.of_nat l)) with ((INR p * INR p - 1) * (dl (Z.of_nat k) * dl (Z.of_nat l))) by ring. rewrite ?dl_dl by assumption. unfold two_valued. destruct (Nat.eqb k 0 && Nat.eqb l 0)%bool; field.
  - intros i j Hi Hj. rewrite enc_BB, dec_GG by (try apply Nat.mod_upper_bound; lia).
    rewrite (GG_periodic (Z.of_nat ((i + k) mod p)) (Z.of_nat i + Z.of_nat k) (Z.of_nat ((j + l) mod p)) (Z.of_nat j + Z.of_nat l)).
    + field.
    + rewrite of_nat_mod, Nat2Z.inj_add. pose proof (divide_mod p Odd (Z.of_nat i + Z.of_nat k)) as [q Hq]. exists (- q)%Z. lia.
    + rewrite of_nat_mod, Nat2Z.inj_add. pose proof (divide_mod p Odd (Z.of_nat j + Z.of_nat l)) as [q Hq]. exists (- q)%Z. lia.
Qed.
Theorem C85_mura_open_fraction : rsum p (fun i => rsum p (fun j => b2r (enc_bit p i j))) = (INR p ^ 2 - 1) / 2 /\ rsum p (fun i => rsum p (fun j => b2r (dec_bit p i j))) = (INR p ^ 2 + 1) / 2.
Proof.
  split.
  - rewrite (DD_nat _ (fun a b => / 2 + / 2 * BB a b)); [rewrite DD_plus, DD_scal, sum_const, sum_BB; field|]. intros. rewrite enc_BB by assumption. field.
  - rewrite (DD_nat _ (fun a b => / 2 + / 2 * GG a b)); [rewrite DD_plus, DD_scal, sum_const, sum_GG; field|]. intros. rewrite dec_GG by assumption. field.
Qed.
End S.

(** *** C85 (b): masks with transmission and shifts.  The rolled mask is the character at the difference. *)
Section T.
Variable p : nat.
Hypothesis Pr : prime (Z.of_nat p).
Hypothesis Odd : (2 < p)%nat.
Lemma BB_periodic a a' b b' : (Z.of_nat p | a - a')%Z -> (Z.of_nat p | b - b')%Z -> BB p a b = BB p a' b'.
Proof. intros H1 H2. unfold BB. rewrite (periodic_chi p Odd a a' H1), (periodic_chi p Odd b b' H2), (per_vv p Odd a a' H1), (per_dl p Odd a a' H1), (per_dl p Odd b b' H2). unfold oo. reflexivity. Qed.
Lemma rollidx_lt i v : (rollidx p i v < p)%nat.
Proof. unfold rollidx. pose proof (Z.mod_pos_bound (Z.of_nat i - Z.of_nat v) (Z.of_nat p) ltac:(lia)). lia. Qed.
Lemma rollidx_div i v : (Z.of_nat p | Z.of_nat (rollidx p i v) - (Z.of_nat i - Z.of_nat v))%Z.
Proof.
  unfold rollidx. pose proof (Z.mod_pos_bound (Z.of_nat i - Z.of_nat v) (Z.of_nat p) ltac:(lia)). rewrite Z2Nat.id by lia.
  pose proof (divide_mod p Odd (Z.of_nat i - Z.of_nat v)) as [q Hq]. exists (- q)%Z. lia.
Qed.
Definition bw (t : R) (b : R) : R := 1 - t / 2 + t / 2 * b.
Lemma mask_enc_bw t v u i j : mura_mask p t true v u i j = bw t (BB p (Z.of_nat i - Z.of_nat v) (Z.of_nat j - Z.of_nat u)).
Proof.
  unfold mura_mask, apply_transmission. rewrite enc_BB by (assumption || apply rollidx_lt).
  rewrite (BB_periodic _ (Z.of_nat i - Z.of_nat v) _ (Z.of_nat j - Z.of_nat u)) by apply rollidx_div. unfold bw. field.
Qed.
Lemma mask_dec_bw t v u i j : mura_mask p t false v u i j = bw t (GG p (Z.of_nat i - Z.of_nat v) (Z.of_nat j - Z.of_nat u)).
Proof.
  unfold mura_mask, apply_transmission. rewrite dec_GG by (assumption || apply rollidx_lt).
  rewrite (GG_periodic p Odd _ (Z.of_nat i - Z.of_nat v) _ (Z.of_nat j - Z.of_nat u)) by apply rollidx_div. unfold bw. field.
Qed.
Lemma DD_reflect (H : Z -> Z -> R) c d : (forall a a' b b', (Z.of_nat p | a - a')%Z -> (Z.of_nat p | b - b')%Z -> H a b = H a' b') ->
  DD p (fun v u => H (c - v)%Z (d - u)%Z) = DD p H.
Proof.
  intros PH. unfold DD. rewrite (zs_ext' p Odd _ (fun v => zs p (fun b => H (c - v)%Z b))).
  - apply (zs_perm p Odd (fun a => zs p (fun b => H a b)) (fun v => c - v)%Z).
    + intros a b D. apply (zs_ext' p Odd). intros z. apply PH; [exact D|exists 0%Z; lia].
    + intros a b [q E]. exists (- q)%Z. lia.
  - intros v. apply (zs_perm p Odd (fun b => H (c - v)%Z b) (fun u => d - u)%Z).
    + intros a b D. apply PH; [exists 0%Z; lia|exact D].
    + intros a b [q E]. exists (- q)%Z. lia.
Qed.
(** the correlation of two pixels over all the shifts *)
Lemma mura_pixel_correlation t i j i' j' :
  DD p (fun v u => bw t (BB p (i - v) (j - u)) * bw t (GG p (i' - v) (j' - u))) = (1 - t) * INR p ^ 2 + t ^ 2 * ((INR p ^ 2 - 1) / 4) * (1 + dl p (i' - i) * dl p (j' - j)).
Proof.
  pose proof (DD_reflect (fun a b => bw t (BB p a b) * bw t (GG p (a + (i' - i)) (b + (j' - j)))) i j) as E. cbv beta in E.
  rewrite (DD_ext p Odd _ (fun v u => bw t (BB p (i - v) (j - u)) * bw t (GG p (i - v + (i' - i)) (j - u + (j' - j))))).
  2:{ intros v u. replace (i - v + (i' - i))%Z with (i' - v)%Z by ring. replace (j - u + (j' - j))%Z with (j' - u)%Z by ring. reflexivity. }
  rewrite E.
  - unfold bw. rewrite (DD_ext p Odd _ (fun a b => (1 - t / 2) ^ 2 + ((1 - t / 2) * (t / 2) * BB p a b + ((1 - t / 2) * (t / 2) * GG p (a + (i' - i)) (b + (j' - j)) + (t / 2) ^ 2 * (BB p a b * GG p (a + (i' - i)) (b + (j' - j))))))) by (intros; ring).
    rewrite !(DD_plus p Odd), !(DD_scal p Odd), (sum_const p), (sum_BB p Odd), (sum_GG_shift p Odd), (corr_BG p Pr Odd). field.
  - intros a a' b b' Ha Hb. rewrite (BB_periodic a a' b b' Ha Hb), (GG_periodic p Odd (a + (i' - i)) (a' + (i' - i)) (b + (j' - j)) (b' + (j' - j))); [reflexivity| |].
    + replace (a + (i' - i) - (a' + (i' - i)))%Z with (a - a')%Z by ring. exact Ha.
    + replace (b + (j' - j) - (b' + (j' - j)))%Z with (b - b')%Z by ring. exact Hb.
Qed.
Lemma dl_pixel (a b : nat) : (a < p)%nat -> (b < p)%nat -> dl p (Z.of_nat a - Z.of_nat b) = if Nat.eqb a b then 1 else 0.
Proof.
  intros Ha Hb. unfold dl. destruct (Nat.eqb_spec a b) as [->|N].
  - apply ind_yes; [assumption|]. exists 0%Z. lia.
  - apply ind_no; [assumption|]. rewrite Z.sub_0_r. intros [q E]. apply N. assert (q = 0)%Z by nia. lia.
Qed.
End T.

Definition mura_stack (p : nat) (t : R) (encoding : bool) (L : list (nat * nat)) : mat := fun k i =>
  let s := nth k L (0%nat, 0%nat) in mura_mask p t encoding (fst s) (snd s) (i / p)%nat (i mod p)%nat.
Lemma arange_1 n : arange_step n 1 = seq 0 n.
Proof. unfold arange_step. replace (n + 1 - 1)%nat with n by lia. rewrite Nat.div_1_r. rewrite (map_ext _ (fun k => k)) by (intros; lia). apply map_id. Qed.
Lemma mesh_nth n m k d : (k < n * m)%nat -> nth k (mesh (seq 0 n) (seq 0 m)) d = ((k / m)%nat, (k mod m)%nat).
Proof.
  intros Hk. assert (Hm : (m <> 0)%nat) by nia. unfold mesh. apply nth_error_nth.
  assert (Hq : (k / m < n)%nat) by (apply Nat.div_lt_upper_bound; lia). pose proof (Nat.mod_upper_bound k m Hm) as Hr.
  pose proof (OperatorsLayoutProps.nth_error_flat_map (fun v => map (fun u => (v, u)) (seq 0 m)) m (seq 0 n) (k / m)%nat (k mod m)%nat (k / m)%nat) as E.
  replace (k / m * m + k mod m)%nat with k in E by (rewrite (Nat.div_mod_eq k m) at 1; lia). rewrite E.
  - rewrite nth_error_map. rewrite (nth_error_nth' (seq 0 m) 0%nat) by (rewrite seq_length; exact Hr). rewrite seq_nth by exact Hr. reflexivity.
  - intros a _. now rewrite map_length, seq_length.
  - rewrite (nth_error_nth' (seq 0 n) 0%nat) by (rewrite seq_length; exact Hq). now rewrite seq_nth.
  - exact Hr.
Qed.
Lemma mesh_length a b : length (mesh a b) = (length a * length b)%nat.
Proof. unfold mesh. apply OperatorsLayoutProps.flat_map_const_length. intros v _. apply map_length. Qed.
Lemma split_idx n i : (n <> 0)%nat -> (i < n * n)%nat -> (i / n < n)%nat /\ (i mod n < n)%nat /\ i = (i / n * n + i mod n)%nat.
Proof. intros N H. split; [apply Nat.div_lt_upper_bound; lia|]. split; [now apply Nat.mod_upper_bound|]. rewrite (Nat.div_mod_eq i n) at 1. lia. Qed.

(** *** C85 (c): measuring an image with the full sequential MURA collection and correlating the buckets with the decoding masks gives the
    image back, times a positive constant, on a flat background *)
Theorem C85_mura_reconstruction_is_image_plus_constant : forall (p : nat) (t : R) (L : list (nat * nat)) (x : vec) (i : nat),
  prime (Z.of_nat p) -> (2 < p)%nat -> get_sequential_shifts [p; p] None = inr L -> (i < p * p)%nat ->
  gi_bp (p * p) (p * p) (mura_stack p t false L) (gi_fp (p * p) (p * p) (mura_stack p t true L) x) i =
  t ^ 2 * ((INR p ^ 2 - 1) / 4) * x i + ((1 - t) * INR p ^ 2 + t ^ 2 * ((INR p ^ 2 - 1) / 4)) * rsum (p * p) x.
Proof.
  intros p t L x i Pr Odd HL Hi. unfold get_sequential_shifts, get_interval_shifts in HL. cbn [rev app Nat.eqb orb] in HL. rewrite !arange_1 in HL. injection HL as <-.
  unfold gi_bp, gi_fp.
  transitivity (rsum (p * p) (fun a => x a * ((1 - t) * INR p ^ 2 + t ^ 2 * ((INR p ^ 2 - 1) / 4) * (1 + (if Nat.eqb a i then 1 else 0))))).
  - rewrite (rsum_ext (p * p) _ (fun k => rsum (p * p) (fun a => x a * mura_stack p t true (mesh (seq 0 p) (seq 0 p)) k a * mura_stack p t false (mesh (seq 0 p) (seq 0 p)) k i))) by (intros; rewrite <- rsum_scal_r; reflexivity).
    rewrite rsum_swap. apply rsum_ext. intros a Ha. rewrite (rsum_ext (p * p) _ (fun k => x a * (mura_stack p t true (mesh (seq 0 p) (seq 0 p)) k a * mura_stack p t false (mesh (seq 0 p) (seq 0 p)) k i))) by (intros; ring).
    rewrite rsum_scal. f_equal.
    destruct (split_idx p a ltac:(lia) Ha) as (A1 & A2 & A3). destruct (split_idx p i ltac:(lia) Hi) as (B1 & B2 & B3).
    rewrite rsum_mul.
    rewrite (DD_nat p _ (fun v u => bw t (BB p (Z.of_nat (a / p) - v) (Z.of_nat (a mod p) - u)) * bw t (GG p (Z.of_nat (i / p) - v) (Z.of_nat (i mod p) - u)))).
    + rewrite (mura_pixel_correlation p Pr Odd). rewrite !(dl_pixel p Odd) by assumption. do 3 f_equal.
      destruct (Nat.eqb_spec a i) as [->|N]; [rewrite !Nat.eqb_refl; ring|].
      destruct (Nat.eqb_spec (i / p) (a / p)) as [E1|]; [|ring]. destruct (Nat.eqb_spec (i mod p) (a mod p)) as [E2|]; [exfalso; apply N; rewrite A3, B3, E1, E2; reflexivity|ring].
    + intros v u Hv Hu. unfold mura_stack. rewrite mesh_nth by nia. cbn [fst snd].
      assert (Eq : ((v * p + u) / p = v)%nat) by (rewrite Nat.div_add_l by lia; rewrite Nat.div_small by lia; lia).
      assert (Er : ((v * p + u) mod p = u)%nat) by (rewrite Nat.add_comm, Nat.mod_add by lia; apply Nat.mod_small; lia).
      rewrite Eq, Er, (mask_enc_bw p Pr Odd), (mask_dec_bw p Pr Odd). reflexivity.
  - set (c0 := (1 - t) * INR p ^ 2). set (c1 := t ^ 2 * ((INR p ^ 2 - 1) / 4)).
    rewrite (rsum_ext (p * p) _ (fun a => (c0 + c1) * x a + c1 * (delta a i * x a))).
    + rewrite rsum_plus, !rsum_scal, (rsum_delta (p * p) i x Hi). ring.
    + intros a _. unfold delta. destruct (Nat.eqb a i); ring.
Qed.

(** non-vacuity: the smallest MURA, p = 5 *)
Lemma prime_5 : prime (Z.of_nat 5).
Proof. apply prime_alt. split; [reflexivity|]. intros n Hn [q E]. change (Z.of_nat 5) with 5%Z in *. assert (n = 2 \/ n = 3 \/ n = 4)%Z as [->|[->| ->]] by lia; lia. Qed.
Example mura_5_correlation : rsum 5 (fun i => rsum 5 (fun j => b2r (enc_bit 5 i j) * b2r (dec_bit 5 ((i + 0) mod 5) ((j + 0) mod 5)))) = 12 /\
  rsum 5 (fun i => rsum 5 (fun j => b2r (enc_bit 5 i j) * b2r (dec_bit 5 ((i + 2) mod 5) ((j + 3) mod 5)))) = 6.
Proof. rewrite !(C85_mura_cross_correlation_two_valued 5 prime_5) by lia. unfold two_valued. cbn [Nat.eqb andb]. replace (INR 5) with 5 by (simpl; ring). lra. Qed.

(** *** C85 (d), refuted for the sizes the generator builds: it rounds the side up to 4 l + 1, prime or not; for 9 pixels of 1 mm the mask
    has side 9 and its correlation takes more than one value off the origin *)
Fixpoint nsum (n : nat) (f : nat -> nat) : nat := match n with O => O | S m => (nsum m f + f m)%nat end.
Lemma nsum_rsum n f : rsum n (fun i => INR (f i)) = INR (nsum n f).
Proof. induction n as [|n IH]; [reflexivity|]. cbn [rsum nsum]. rewrite plus_INR, IH. reflexivity. Qed.
Definition ncorr (n k l : nat) : nat := nsum n (fun i => nsum n (fun j => if (enc_bit n i j && dec_bit n ((i + k) mod n) ((j + l) mod n))%bool then 1 else 0)%nat).
Lemma ncorr_ok n k l : rsum n (fun i => rsum n (fun j => b2r (enc_bit n i j) * b2r (dec_bit n ((i + k) mod n) ((j + l) mod n)))) = INR (ncorr n k l).
Proof.
  unfold ncorr. rewrite <- nsum_rsum. apply rsum_ext. intros i _. rewrite <- nsum_rsum. apply rsum_ext. intros j _.
  destruct (enc_bit n i j), (dec_bit n ((i + k) mod n) ((j + l) mod n)); cbn [b2r andb INR]; ring.
Qed.
Theorem C85_mura_generated_side_not_prime_refuted :
  mura_points 9 1 = 9%Z /\ ~ prime 9 /\
  exists k l k' l', (k < 9)%nat /\ (l < 9)%nat /\ (k' < 9)%nat /\ (l' < 9)%nat /\ (k, l) <> (0, 0)%nat /\ (k', l') <> (0, 0)%nat /\
    rsum 9 (fun i => rsum 9 (fun j => b2r (enc_bit 9 i j) * b2r (dec_bit 9 ((i + k) mod 9) ((j + l) mod 9)))) <>
    rsum 9 (fun i => rsum 9 (fun j => b2r (enc_bit 9 i j) * b2r (dec_bit 9 ((i + k') mod 9) ((j + l') mod 9)))).
Proof.
  split; [|split].
  - unfold mura_points, mura_base. replace ((9 / 1 - 1) / 4) with (IZR 2) by lra. now rewrite rceil_IZR.
  - intros H. apply prime_alt in H as [_ H]. apply (H 3%Z); [lia|exists 3%Z; reflexivity].
  - exists 0%nat, 1%nat, 1%nat, 1%nat. repeat (split; [lia || discriminate|]). rewrite !ncorr_ok. intros E. apply INR_eq in E. vm_compute in E. discriminate.
Qed.

(** *** C85 (e): the generator's grid.  The mask covers the field of view at the requested resolution or better. *)
Theorem C85_mura_grid_resolves_request : forall fov res, 0 < res -> res < fov ->
  (mura_points fov res mod 4 = 1)%Z /\ fov / res <= IZR (mura_points fov res) < fov / res + 4 /\ fov / IZR (mura_points fov res) <= res.
Proof.
  intros fov res Hr Hf. pose proof (rceil_spec ((fov / res - 1) / 4)) as H. unfold mura_points. fold (mura_base fov res) in H.
  assert (Hq : 1 < fov / res) by (apply Rmult_lt_reg_r with res; [exact Hr|]; unfold Rdiv; rewrite Rmult_assoc, Rinv_l by lra; lra).
  assert (E : IZR (4 * mura_base fov res + 1) = 4 * IZR (mura_base fov res) + 1) by (rewrite plus_IZR, mult_IZR; reflexivity).
  split; [|split].
  - replace (4 * mura_base fov res + 1)%Z with (1 + mura_base fov res * 4)%Z by ring. rewrite Z.mod_add by lia. reflexivity.
  - rewrite E. lra.
  - rewrite E. apply Rmult_le_reg_r with (4 * IZR (mura_base fov res) + 1); [lra|]. unfold Rdiv. rewrite Rmult_assoc, Rinv_l by lra.
    replace (fov * 1) with (fov / res * res) by (field; lra). rewrite Rmult_comm. apply Rmult_le_compat_l; lra.
Qed.
Example mura_grid_example : mura_points 13 1 = 13%Z.
Proof. unfold mura_points, mura_base. replace ((13 / 1 - 1) / 4) with (IZR 3) by lra. now rewrite rceil_IZR. Qed.
