(** Theorems C185-C188: the wavelet transforms. *)
From Coq Require Import Permutation.
From Verif Require Import Sums Arrays PyErr SolversModel OperatorsModel OperatorsProps OperatorsLayoutProps Reindex WaveletsModel.

(** * Specification *)
(** the product of two filters seen as polynomials, coefficient m *)
Definition pconv (F : nat) (f g : vec) (m : nat) : R :=
  rsum F (fun k => rsum F (fun j => if Nat.eqb (k + j) m then f k * g j else 0)).
(** the perfect-reconstruction condition of a filter bank: H0 F0 + H1 F1 = 2 z^(F-1) *)
Definition perfect_bank (w : wbank) : Prop :=
  Nat.Even (wb_F w) /\ (0 < wb_F w)%nat /\
  forall m, pconv (wb_F w) (wb_rec_lo w) (wb_dec_lo w) m + pconv (wb_F w) (wb_rec_hi w) (wb_dec_hi w) m
    = if Nat.eqb m (wb_F w - 1) then 2 else 0.
(** an orthogonal scaling filter: orthonormal to its even translates *)
Definition orthonormal_filter (F : nat) (h : vec) : Prop :=
  Nat.Even F /\ (0 < F)%nat /\
  forall m, rsum F (fun k => rsum F (fun j => if Nat.eqb j (k + 2 * m) then h k * h j else 0)) = if Nat.eqb m 0 then 1 else 0.
(** two arrays that agree on the box s *)
Definition aeq (s : list nat) (x y : arr) : Prop := forall l, inb s l -> x l = y l.

(** * One axis *)
Lemma zmod_lt n z : (0 < n)%nat -> (Z.to_nat (z mod Z.of_nat n) < n)%nat.
Proof. intros H. pose proof (Z.mod_pos_bound z (Z.of_nat n) ltac:(lia)). lia. Qed.
Lemma cshift_comp n o o' x i : (0 < n)%nat -> cshift n o (cshift n o' x) i = cshift n (o + o') x i.
Proof.
  intros H. unfold cshift. f_equal. f_equal. pose proof (Z.mod_pos_bound (Z.of_nat i + o) (Z.of_nat n) ltac:(lia)).
  rewrite Z2Nat.id by lia. rewrite Zplus_mod_idemp_l. f_equal. ring.
Qed.
Lemma cshift_0 n x i : (i < n)%nat -> cshift n 0 x i = x i.
Proof. intros H. unfold cshift. f_equal. rewrite Z.add_0_r, Z.mod_small by lia. apply Nat2Z.id. Qed.
Lemma cshift_ext n o x y i : (forall j, (j < n)%nat -> x j = y j) -> (0 < n)%nat -> cshift n o x i = cshift n o y i.
Proof. intros H Hn. apply H, zmod_lt, Hn. Qed.
Lemma rsum_cshift n o f : (0 < n)%nat -> rsum n (cshift n o f) = rsum n f.
Proof.
  intros Hn. set (g := fun o (l : list nat) => [Z.to_nat ((Z.of_nat (nth 0 l 0%nat) + o) mod Z.of_nat n)]).
  transitivity (bsum [n] (fun l => f (nth 0 (g o l) 0%nat))); [reflexivity|].
  assert (G : forall o l, inb [n] l -> inb [n] (g o l) /\ g (- o)%Z (g o l) = l).
  { intros o' l Hl. destruct l as [|i [|]]; [inversion Hl| |apply inb_cons in Hl as [_ Hl]; inversion Hl].
    apply inb_cons in Hl as [Hi _]. split; [apply inb_cons; split; [apply zmod_lt, Hn|constructor]|].
    unfold g. cbn [nth]. f_equal. pose proof (Z.mod_pos_bound (Z.of_nat i + o') (Z.of_nat n) ltac:(lia)).
    rewrite Z2Nat.id by lia. rewrite Zplus_mod_idemp_l. replace (Z.of_nat i + o' + - o')%Z with (Z.of_nat i) by ring.
    rewrite Z.mod_small by lia. apply Nat2Z.id. }
  rewrite (bsum_reindex [n] [n] (g o) (g (- o)%Z) (fun l => f (nth 0 l 0%nat))); [reflexivity|apply G|].
  intros l Hl. split; [apply G, Hl|]. rewrite <- (Z.opp_involutive o) at 1. apply G, Hl.
Qed.
Lemma dot_cshift n o x y : (0 < n)%nat -> dot n (cshift n o x) y = dot n x (cshift n (- o) y).
Proof.
  intros Hn. unfold dot. rewrite <- (rsum_cshift n o (fun i => x i * cshift n (- o) y i)) by exact Hn. apply rsum_ext. intros i Hi.
  change (cshift n o (fun i0 => x i0 * cshift n (- o) y i0) i) with (cshift n o x i * cshift n o (cshift n (- o) y) i).
  rewrite cshift_comp by exact Hn. rewrite Z.add_opp_diag_r, cshift_0 by exact Hi. reflexivity.
Qed.
(** ** polynomial product *)
Lemma pconv_comm F f g m : pconv F f g m = pconv F g f m.
Proof.
  unfold pconv. rewrite rsum_swap. apply rsum_ext. intros j _. apply rsum_ext. intros k _. rewrite (Nat.add_comm j k).
  destruct (Nat.eqb _ _); [ring|reflexivity].
Qed.
Lemma pconv_sum F f g U : rsum F (fun k => rsum F (fun j => f k * (g j * U (k + j)%nat))) = rsum (2 * F) (fun m => pconv F f g m * U m).
Proof.
  transitivity (rsum F (fun k => rsum F (fun j => rsum (2 * F) (fun m => (if Nat.eqb (k + j) m then f k * g j else 0) * U m)))).
  { apply rsum_ext. intros k Hk. apply rsum_ext. intros j Hj. rewrite (rsum_single _ _ (k + j)%nat); [|lia|].
    - rewrite Nat.eqb_refl. ring.
    - intros i _ Hi. destruct (Nat.eqb_spec (k + j) i); [lia|ring]. }
  rewrite (rsum_ext F _ (fun k => rsum (2 * F) (fun m => rsum F (fun j => (if Nat.eqb (k + j) m then f k * g j else 0) * U m))))
    by (intros; apply rsum_swap).
  rewrite rsum_swap. apply rsum_ext. intros m _. unfold pconv. rewrite <- rsum_scal_r. apply rsum_ext. intros k _. apply rsum_scal_r.
Qed.
Lemma pconv_scaled F a b f g m : pconv F (scaled a f) (scaled b g) m = a * b * pconv F f g m.
Proof.
  unfold pconv. rewrite <- rsum_scal. apply rsum_ext. intros k _. rewrite <- rsum_scal. apply rsum_ext. intros j _.
  unfold scaled. destruct (Nat.eqb _ _); ring.
Qed.
Lemma rec_dec F f g d n x i : (0 < n)%nat ->
  swt_rec F f d n (swt_dec F g d n x) i
  = rsum (2 * F) (fun m => pconv F f g m * cshift n (Z.of_nat d * (2 * Z.of_nat (F / 2) - 1 - Z.of_nat m)) x i).
Proof.
  intros Hn. rewrite <- (pconv_sum F f g (fun m => cshift n (Z.of_nat d * (2 * Z.of_nat (F / 2) - 1 - Z.of_nat m)) x i)).
  apply rsum_ext. intros k _. rewrite rsum_scal. f_equal.
  set (o := (Z.of_nat d * (Z.of_nat (F / 2) - 1 - Z.of_nat k))%Z).
  change (cshift n o (swt_dec F g d n x) i)
    with (rsum F (fun j => g j * cshift n o (cshift n (Z.of_nat d * (Z.of_nat (F / 2) - Z.of_nat j)) x) i)).
  apply rsum_ext. intros j _. f_equal. rewrite cshift_comp by exact Hn. f_equal. unfold o. nia.
Qed.
Lemma even_half F : Nat.Even F -> (2 * (F / 2) = F)%nat.
Proof. intros [k ->]. rewrite (Nat.mul_comm 2 k), Nat.div_mul by lia. lia. Qed.
Lemma scale_prod norm : rec_scale norm * dec_scale norm = 1.
Proof. destruct norm; cbn; [apply Rinv_r; pose proof Rlt_sqrt2_0; lra|ring]. Qed.
(** one level along one axis is inverted exactly, whatever the dilation and the length *)
Lemma axis_pr w norm d n x i : perfect_bank w -> (i < n)%nat ->
  (rec1 w norm false d n (dec1 w norm false d n x) i + rec1 w norm true d n (dec1 w norm true d n x) i) / 2 = x i.
Proof.
  intros (He & Hpos & Hpc) Hi. unfold rec1, dec1. rewrite !rec_dec by lia. rewrite <- rsum_plus.
  cbn [wb_rec wb_dec]. rewrite (rsum_single _ _ (wb_F w - 1)%nat); [|lia|].
  - rewrite !pconv_scaled, scale_prod. specialize (Hpc (wb_F w - 1)%nat). rewrite Nat.eqb_refl in Hpc.
    replace (Z.of_nat d * _)%Z with 0%Z; [|pose proof (even_half _ He); nia].
    rewrite cshift_0 by exact Hi. rewrite <- Rmult_plus_distr_r. rewrite !Rmult_1_l. rewrite Hpc. lra.
  - intros m _ Hm. rewrite <- Rmult_plus_distr_r, !pconv_scaled, scale_prod, !Rmult_1_l, Hpc.
    destruct (Nat.eqb_spec m (wb_F w - 1)); [lia|ring].
Qed.
Lemma dec_ext F f d n x y i : (0 < n)%nat -> (forall j, (j < n)%nat -> x j = y j) -> swt_dec F f d n x i = swt_dec F f d n y i.
Proof. intros Hn H. apply rsum_ext. intros k _. f_equal. apply cshift_ext; auto. Qed.
Lemma rec_ext F f d n x y i : (0 < n)%nat -> (forall j, (j < n)%nat -> x j = y j) -> swt_rec F f d n x i = swt_rec F f d n y i.
Proof. intros Hn H. apply rsum_ext. intros k _. f_equal. apply cshift_ext; auto. Qed.
Lemma cshift_pull n o x c : forall i, cshift n o (fun j => c * x j) i = c * cshift n o x i.
Proof. reflexivity. Qed.
(** the transpose of a decomposition filter is the reversed filter used as reconstruction filter *)
Lemma dec_transpose F f g d n u v : (0 < n)%nat -> Nat.Even F -> (forall k, (k < F)%nat -> g k = f (F - 1 - k)%nat) ->
  dot n (swt_dec F f d n u) v = dot n u (swt_rec F g d n v).
Proof.
  intros Hn He Hg. unfold dot.
  rewrite (rsum_ext n _ (fun i => rsum F (fun k => f k * (cshift n (Z.of_nat d * (Z.of_nat (F / 2) - Z.of_nat k)) u i * v i))))
    by (intros i _; unfold swt_dec; rewrite <- rsum_scal_r; apply rsum_ext; intros; ring).
  rewrite rsum_swap.
  rewrite (rsum_ext n (fun i => u i * swt_rec F g d n v i)
    (fun i => rsum F (fun k => g k * (u i * cshift n (Z.of_nat d * (Z.of_nat (F / 2) - 1 - Z.of_nat k)) v i))))
    by (intros i _; unfold swt_rec; rewrite <- rsum_scal; apply rsum_ext; intros; ring).
  rewrite (rsum_swap n F). rewrite (rsum_rev F). apply rsum_ext. intros k Hk. rewrite !rsum_scal, Hg by exact Hk. f_equal.
  change (dot n (cshift n (Z.of_nat d * (Z.of_nat (F / 2) - Z.of_nat (F - 1 - k))) u) v
    = dot n u (cshift n (Z.of_nat d * (Z.of_nat (F / 2) - 1 - Z.of_nat k)) v)).
  rewrite dot_cshift by exact Hn. f_equal. f_equal. pose proof (even_half F He). nia.
Qed.
Lemma rec_scaled F c f d n y i : swt_rec F (scaled c f) d n y i = c * swt_rec F f d n y i.
Proof. unfold swt_rec, scaled. rewrite <- rsum_scal. apply rsum_ext. intros; ring. Qed.
Lemma dec_scaled F c f d n y i : swt_dec F (scaled c f) d n y i = c * swt_dec F f d n y i.
Proof. unfold swt_dec, scaled. rewrite <- rsum_scal. apply rsum_ext. intros; ring. Qed.

(** ** orthogonal banks *)
Lemma sign_sq k : (-1) ^ k * (-1) ^ k = 1.
Proof. rewrite <- Rpow_mult_distr. replace (-1 * -1) with 1 by ring. apply pow1. Qed.
Lemma sign_split a b c : (a + b = c)%nat -> (-1) ^ a = (-1) ^ b * (-1) ^ c.
Proof. intros <-. rewrite pow_add. rewrite Rmult_comm, Rmult_assoc, sign_sq. ring. Qed.
(** autocorrelation at lag l *)
Definition acorr (F : nat) (h : vec) (l : nat) : R := rsum F (fun k => rsum F (fun j => if Nat.eqb j (k + l) then h k * h j else 0)).
Lemma pconv_rev F h m : (0 < F)%nat -> (m < 2 * F)%nat ->
  pconv F h (rev_filter F h) m = acorr F h (if Nat.leb m (F - 1) then F - 1 - m else m - (F - 1)).
Proof.
  intros HF Hm. unfold pconv, acorr.
  transitivity (rsum F (fun k => rsum F (fun j => if Nat.eqb (k + (F - 1 - j)) m then h k * h j else 0))).
  { apply rsum_ext. intros k _. rewrite rsum_rev. apply rsum_ext. intros j Hj. unfold rev_filter.
    replace (F - 1 - (F - 1 - j))%nat with j by lia. reflexivity. }
  destruct (Nat.leb_spec m (F - 1)).
  - apply rsum_ext. intros k Hk. apply rsum_ext. intros j Hj.
    destruct (Nat.eqb_spec (k + (F - 1 - j)) m), (Nat.eqb_spec j (k + (F - 1 - m))); try reflexivity; lia.
  - rewrite rsum_swap. apply rsum_ext. intros k Hk. apply rsum_ext. intros j Hj.
    destruct (Nat.eqb_spec (j + (F - 1 - k)) m), (Nat.eqb_spec j (k + (m - (F - 1)))); try reflexivity; try lia; ring.
Qed.
Lemma pconv_qmf F h m : Nat.Even F -> (0 < F)%nat ->
  pconv F (qmf F h) (rev_filter F (qmf F h)) m = - (-1) ^ m * pconv F h (rev_filter F h) m.
Proof.
  intros He HF. rewrite (pconv_comm F h). unfold pconv. rewrite <- rsum_scal. apply rsum_ext. intros k Hk.
  rewrite <- rsum_scal. apply rsum_ext. intros j Hj. destruct (Nat.eqb_spec (k + j) m) as [E|]; [|ring].
  unfold qmf, rev_filter. replace (F - 1 - (F - 1 - j))%nat with j by lia.
  assert (S1 : (-1) ^ k * (-1) ^ (F - 1 - j) = - (-1) ^ m).
  { rewrite (sign_split (F - 1 - j) (j + 1) F) by lia. destruct He as [q ->]. rewrite (pow_mult (-1) 2 q).
    replace ((-1) ^ 2) with 1 by ring. rewrite pow1, pow_add, <- E, pow_add. ring. }
  rewrite <- S1. ring.
Qed.
Lemma pconv_out F f g m : (2 * F <= m)%nat -> pconv F f g m = 0.
Proof. intros H. apply rsum_zero. intros k Hk. apply rsum_zero. intros j Hj. destruct (Nat.eqb_spec (k + j) m); [lia|reflexivity]. Qed.
(** every orthonormal scaling filter gives a perfect-reconstruction bank *)
Lemma orthogonal_perfect F h : orthonormal_filter F h -> perfect_bank (orthogonal_bank F h).
Proof.
  intros (He & HF & Ho). split; [exact He|split; [exact HF|]]. intros m. cbn [orthogonal_bank wb_F wb_rec_lo wb_rec_hi wb_dec_lo wb_dec_hi].
  destruct (le_lt_dec (2 * F) m) as [Hm|Hm].
  { rewrite !pconv_out by exact Hm. destruct (Nat.eqb_spec m (F - 1)); [lia|ring]. }
  rewrite pconv_qmf by assumption. rewrite pconv_rev by assumption.
  destruct (Nat.Even_or_Odd m) as [[q Hq]|[q Hq]].
  - assert (E1 : (-1) ^ m = 1) by (rewrite Hq, pow_mult; replace ((-1) ^ 2) with 1 by ring; apply pow1).
    rewrite E1. destruct He as [r Hr]. destruct (Nat.eqb_spec m (F - 1)); [lia|]. ring.
  - assert (E1 : (-1) ^ m = -1) by (rewrite Hq, pow_add, pow_mult; replace ((-1) ^ 2) with 1 by ring; rewrite pow1; ring).
    rewrite E1. destruct He as [r Hr]. fold (acorr F h) in Ho.
    destruct (Nat.leb_spec m (F - 1)).
    + pose proof (Ho (r - 1 - q)%nat) as Hq1. replace (F - 1 - m)%nat with (2 * (r - 1 - q))%nat by lia.
      unfold acorr. rewrite Hq1. destruct (Nat.eqb_spec (r - 1 - q) 0), (Nat.eqb_spec m (F - 1)); try lia; ring.
    + pose proof (Ho (q + 1 - r)%nat) as Hq1. replace (m - (F - 1))%nat with (2 * (q + 1 - r))%nat by lia.
      unfold acorr. rewrite Hq1. destruct (Nat.eqb_spec (q + 1 - r) 0), (Nat.eqb_spec m (F - 1)); try lia; ring.
Qed.
(** the factor between the transpose of the decomposition and half the reconstruction: 1 when normalised, 2 otherwise *)
Definition kappa (norm : bool) : R := if norm then 1 else 2.
Lemma sqrt2_half : / sqrt 2 = sqrt 2 / 2.
Proof. pose proof Rlt_sqrt2_0. pose proof (sqrt_sqrt 2 ltac:(lra)). field_simplify_eq; [|lra]. nra. Qed.
Lemma axis_transpose F h norm hi d n u v : Nat.Even F -> (0 < n)%nat ->
  dot n (dec1 (orthogonal_bank F h) norm hi d n u) v = kappa norm / 2 * dot n u (rec1 (orthogonal_bank F h) norm hi d n v).
Proof.
  intros He Hn. unfold dec1, rec1. cbn [orthogonal_bank wb_F].
  assert (E : forall c f y, dot n (swt_dec F (scaled c f) d n u) y = c * dot n (swt_dec F f d n u) y).
  { intros c f y. unfold dot. rewrite <- rsum_scal. apply rsum_ext. intros i _. rewrite dec_scaled. ring. }
  assert (E' : forall c f y, dot n u (swt_rec F (scaled c f) d n y) = c * dot n u (swt_rec F f d n y)).
  { intros c f y. unfold dot. rewrite <- rsum_scal. apply rsum_ext. intros i _. rewrite rec_scaled. ring. }
  rewrite E, E'. rewrite (dec_transpose F _ (wb_rec (orthogonal_bank F h) hi) d n u v Hn He).
  - destruct norm; cbn [dec_scale rec_scale kappa]; [rewrite sqrt2_half|]; field.
  - intros k Hk. destruct hi; cbn [wb_rec wb_dec orthogonal_bank wb_rec_lo wb_rec_hi wb_dec_lo wb_dec_hi]; unfold rev_filter;
      replace (F - 1 - (F - 1 - k))%nat with k by lia; reflexivity.
Qed.

(** * One level, several axes *)
Definition axes_ok (s : list nat) (axes : list (nat * nat)) : Prop :=
  Forall (fun an => (fst an < length s)%nat /\ snd an = nth (fst an) s 0%nat) axes.
Lemma along_along ax op1 op2 x l : (ax < length l)%nat -> along ax op1 (along ax op2 x) l = op1 (op2 (fun j => x (set_nth ax j l))) (nth ax l 0%nat).
Proof.
  intros H. unfold along. f_equal. apply functional_extensionality. intros i. rewrite nth_set_nth by exact H.
  f_equal. apply functional_extensionality. intros j. rewrite set_set_nth. reflexivity.
Qed.
Lemma along_aeq s ax op x y : (ax < length s)%nat ->
  (forall u v i, (0 < nth ax s 0)%nat -> (forall j, (j < nth ax s 0)%nat -> u j = v j) -> op u i = op v i) ->
  aeq s x y -> aeq s (along ax op x) (along ax op y).
Proof.
  intros Hax Ho H l Hl. unfold along. pose proof (inb_nth s ax l Hl Hax). apply Ho; [lia|]. intros j Hj. apply H, inb_set; assumption.
Qed.
Lemma iswtn_level_aeq w norm s d axes : axes_ok s axes -> forall c c',
  (forall lab, length lab = length axes -> aeq s (c lab) (c' lab)) ->
  aeq s (iswtn_level w norm d axes c) (iswtn_level w norm d axes c').
Proof.
  induction axes as [|an axes IH]; intros Hok c c' H; [apply (H []); reflexivity|].
  inversion Hok as [|? ? [Ha Hn] Hok']; subst. intros l Hl. cbn [iswtn_level]. apply (f_equal (fun z => z / 2)). apply f_equal2.
  - apply (along_aeq s); [exact Ha| | |exact Hl].
    + intros u v i Hp Hu. rewrite <- Hn in Hp, Hu. apply rec_ext; assumption.
    + apply IH; [exact Hok'|]. intros lab Hlab. apply H. cbn [length]. lia.
  - apply (along_aeq s); [exact Ha| | |exact Hl].
    + intros u v i Hp Hu. rewrite <- Hn in Hp, Hu. apply rec_ext; assumption.
    + apply IH; [exact Hok'|]. intros lab Hlab. apply H. cbn [length]. lia.
Qed.
Lemma swtn_band_aeq w norm s d axes : axes_ok s axes -> forall lab x y, aeq s x y ->
  aeq s (swtn_band w norm d axes lab x) (swtn_band w norm d axes lab y).
Proof.
  induction axes as [|an axes IH]; intros Hok lab x y H; [exact H|]. inversion Hok as [|? ? [Ha Hn] Hok']; subst.
  destruct lab as [|b lab]; [exact H|]. cbn [swtn_band]. apply IH; [exact Hok'|]. apply along_aeq; [exact Ha| |exact H].
  intros u v i Hp Hu. rewrite <- Hn in Hp, Hu. apply dec_ext; assumption.
Qed.
Lemma level_pr w norm s d axes : perfect_bank w -> axes_ok s axes -> forall x,
  aeq s (iswtn_level w norm d axes (fun lab => swtn_band w norm d axes lab x)) x.
Proof.
  intros Hw. induction axes as [|an axes IH]; intros Hok x; [intros l _; reflexivity|].
  inversion Hok as [|? ? [Ha Hn] Hok']; subst. intros l Hl. cbn [iswtn_level swtn_band].
  assert (E : forall b, along (fst an) (rec1 w norm b d (snd an))
      (iswtn_level w norm d axes (fun lab => swtn_band w norm d axes lab (along (fst an) (dec1 w norm b d (snd an)) x))) l
    = rec1 w norm b d (snd an) (dec1 w norm b d (snd an) (fun j => x (set_nth (fst an) j l))) (nth (fst an) l 0%nat)).
  { intros b. rewrite <- along_along by (rewrite (inb_length s l Hl); exact Ha). apply (along_aeq s); [exact Ha| |apply IH, Hok'|exact Hl].
    intros u v i Hp Hu. rewrite <- Hn in Hp, Hu. apply rec_ext; assumption. }
  rewrite !E. rewrite axis_pr; [rewrite set_nth_nth; reflexivity|exact Hw|]. rewrite Hn. apply inb_nth; assumption.
Qed.
(** adjointness of one level, over all the 2^axes sub-bands *)
Lemma adot_scal_r s c x y : adot s x (fun l => c * y l) = c * adot s x y.
Proof. unfold adot. rewrite <- bsum_scal. apply bsum_ext. intros; ring. Qed.
Lemma adot_plus_r s x y z : adot s x (fun l => y l + z l) = adot s x y + adot s x z.
Proof. unfold adot. rewrite <- bsum_plus. apply bsum_ext. intros; ring. Qed.
Lemma adot_aeq s x x' y y' : aeq s x x' -> aeq s y y' -> adot s x y = adot s x' y'.
Proof. intros H H'. apply bsum_ext. intros l Hl. rewrite (H l Hl), (H' l Hl). reflexivity. Qed.
Lemma along_transpose s ax opA opB k x y : (ax < length s)%nat ->
  (forall u v, dot (nth ax s 0%nat) (opA u) v = k * dot (nth ax s 0%nat) u (opB v)) ->
  adot s (along ax opA x) y = k * adot s x (along ax opB y).
Proof.
  intros Hax H. rewrite (along_adjoint s ax opA (fun v i => k * opB v i)); [|exact Hax|].
  - unfold along at 1. rewrite <- adot_scal_r. reflexivity.
  - intros u v. rewrite H. unfold dot. rewrite <- rsum_scal. apply rsum_ext. intros; ring.
Qed.
Lemma lsum_scal0 {A} (l : list A) c f : lsum l (fun a => c * f a) = c * lsum l f.
Proof. induction l as [|a l IH]; unfold lsum in *; simpl; [ring|]. rewrite IH. ring. Qed.
Definition pos_axes (axes : list (nat * nat)) : Prop := Forall (fun an => (0 < snd an)%nat) axes.
Lemma level_adjoint F h norm s d axes : Nat.Even F -> axes_ok s axes -> pos_axes axes -> forall x c,
  lsum (bools (length axes)) (fun lab => adot s (swtn_band (orthogonal_bank F h) norm d axes lab x) (c lab))
  = kappa norm ^ length axes * adot s x (iswtn_level (orthogonal_bank F h) norm d axes c).
Proof.
  intros He. induction axes as [|an axes IH]; intros Hok Hp x c.
  - cbn [length bools]. unfold lsum. cbn [fold_right swtn_band iswtn_level pow]. ring.
  - inversion Hok as [|? ? [Ha Hn] Hok']; subst. inversion Hp as [|? ? Hp1 Hp']; subst. cbn [length bools].
    rewrite lsum_app, !lsum_map. cbn [swtn_band].
    rewrite (IH Hok' Hp' _ (fun lab => c (false :: lab))), (IH Hok' Hp' _ (fun lab => c (true :: lab))).
    rewrite !(along_transpose s (fst an) _ (rec1 (orthogonal_bank F h) norm false d (snd an)) (kappa norm / 2) x
      (iswtn_level (orthogonal_bank F h) norm d axes (fun lab => c (false :: lab)))).
    2: exact Ha. 2: { intros u v. rewrite <- Hn. apply axis_transpose; assumption. }
    rewrite !(along_transpose s (fst an) _ (rec1 (orthogonal_bank F h) norm true d (snd an)) (kappa norm / 2) x
      (iswtn_level (orthogonal_bank F h) norm d axes (fun lab => c (true :: lab)))).
    2: exact Ha. 2: { intros u v. rewrite <- Hn. apply axis_transpose; assumption. }
    cbn [iswtn_level pow].
    transitivity (kappa norm * kappa norm ^ length axes * (/ 2 *
      adot s x (fun l => along (fst an) (rec1 (orthogonal_bank F h) norm false d (snd an)) (iswtn_level (orthogonal_bank F h) norm d axes (fun lab => c (false :: lab))) l
        + along (fst an) (rec1 (orthogonal_bank F h) norm true d (snd an)) (iswtn_level (orthogonal_bank F h) norm d axes (fun lab => c (true :: lab))) l))).
    + rewrite adot_plus_r. field.
    + rewrite <- adot_scal_r. apply f_equal. apply bsum_ext. intros; field.
Qed.

(** * All the levels *)
Lemma all_a_repeat axes : all_a axes = repeat false (length axes).
Proof. induction axes as [|a r IH]; [reflexivity|]. cbn. unfold all_a in IH. rewrite IH. reflexivity. Qed.
Lemma label_eqb_spec a b : label_eqb a b = true <-> a = b.
Proof. unfold label_eqb. destruct (list_eq_dec _ a b); split; congruence. Qed.
Lemma with_approx_a axes a c : with_approx axes a c (all_a axes) = a.
Proof. unfold with_approx. replace (label_eqb _ _) with true; [reflexivity|]. symmetry. apply label_eqb_spec. reflexivity. Qed.
Lemma with_approx_d axes a c lab : lab <> all_a axes -> with_approx axes a c lab = c lab.
Proof. intros H. unfold with_approx. destruct (label_eqb lab (all_a axes)) eqn:E; [apply label_eqb_spec in E; contradiction|reflexivity]. Qed.
Lemma F2_length {A B} (P : A -> B -> Prop) a b : Forall2 P a b -> length a = length b.
Proof. induction 1; cbn; congruence. Qed.
Section Levels.
Variable w : wbank.
Variable norm : bool.
Fixpoint iswtg (d : nat) (axes : list (nat * nat)) (a : arr) (details : list (list bool -> arr)) : arr :=
  match details with
  | [] => a
  | c :: rest => iswtg d axes (iswtn_level w norm (d * 2 ^ length rest) axes (with_approx axes a c)) rest
  end.
Lemma iswtg_1 axes details : forall a, iswtg 1 axes a details = iswtn w norm axes a details.
Proof. induction details as [|c r IH]; intros a; [reflexivity|]. cbn [iswtg iswtn]. rewrite IH, Nat.mul_1_l. reflexivity. Qed.
Lemma iswtg_snoc d axes c l : forall a, iswtg d axes a (l ++ [c]) = iswtn_level w norm d axes (with_approx axes (iswtg (2 * d) axes a l) c).
Proof.
  induction l as [|c0 l IH]; intros a; cbn [iswtg app length].
  - rewrite Nat.pow_0_r, Nat.mul_1_r. reflexivity.
  - rewrite IH. rewrite app_length. cbn [length]. replace (d * 2 ^ (length l + 1))%nat with (2 * d * 2 ^ length l)%nat; [reflexivity|].
    rewrite Nat.add_1_r. cbn [Nat.pow]. ring.
Qed.
Lemma swtn_length d level axes : forall x, length (snd (swtn w norm d level axes x)) = level.
Proof. revert d. induction level as [|l IH]; intros d x; cbn [swtn snd]; [reflexivity|]. rewrite app_length, IH. cbn. lia. Qed.
Lemma iswtg_aeq s axes : axes_ok s axes -> forall details details' d a a',
  Forall2 (fun c c' => forall lab, length lab = length axes -> lab <> all_a axes -> aeq s (c lab) (c' lab)) details details' ->
  aeq s a a' -> aeq s (iswtg d axes a details) (iswtg d axes a' details').
Proof.
  intros Hok details details' d a a' H. revert a a'. induction H as [|c c' r r' Hc Hr IH]; intros a a' Ha; [exact Ha|].
  cbn [iswtg]. apply IH. rewrite (F2_length _ _ _ Hr). apply iswtn_level_aeq; [exact Hok|]. intros lab Hlab.
  destruct (list_eq_dec Bool.bool_dec lab (all_a axes)) as [->|Hne].
  - rewrite !with_approx_a. exact Ha.
  - rewrite !with_approx_d by exact Hne. apply Hc; assumption.
Qed.
Lemma levels_pr s axes : perfect_bank w -> axes_ok s axes -> forall level d x,
  aeq s (iswtg d axes (fst (swtn w norm d level axes x)) (snd (swtn w norm d level axes x))) x.
Proof.
  intros Hw Hok. induction level as [|level IH]; intros d x; cbn [swtn fst snd]; [intros l _; reflexivity|].
  rewrite iswtg_snoc. intros l Hl. rewrite <- (level_pr w norm s d axes Hw Hok x l Hl).
  apply (iswtn_level_aeq w norm s); [exact Hok| |exact Hl]. intros lab Hlab.
  destruct (list_eq_dec Bool.bool_dec lab (all_a axes)) as [->|Hne].
  - rewrite with_approx_a. apply IH.
  - rewrite with_approx_d by exact Hne. intros l' _. reflexivity.
Qed.
End Levels.
(** the sum over the sub-bands of one level other than the approximation *)
Lemma labels_perm n : Permutation (bools n) (repeat false n :: labels n).
Proof.
  assert (ND : NoDup (repeat false n :: labels n)).
  { constructor; [|apply labels_nodup]. intros H. apply (C08_labels_complete n) in H. destruct H as [_ H]. apply H. reflexivity. }
  symmetry. apply NoDup_Permutation_bis; [exact ND| |].
  - cbn [length]. rewrite labels_length, bools_length. pose proof (pow2_pos n). lia.
  - intros l [<-|H]; apply in_bools; [apply repeat_length|]. apply (C08_labels_complete n) in H. tauto.
Qed.
Lemma lsum_bools axes f : lsum (bools (length axes)) f = f (all_a axes) + lsum (labels (length axes)) f.
Proof. rewrite (lsum_perm _ _ f (labels_perm (length axes))), all_a_repeat. reflexivity. Qed.
(** the pairing of two families of coefficients *)
Definition pairing (s : list nat) (n : nat) (a a' : arr) (cs cs' : list (list bool -> arr)) : R :=
  adot s a a' + lsum (combine cs cs') (fun p => lsum (labels n) (fun lab => adot s (fst p lab) (snd p lab))).
Lemma combine_app {A B} (a b : list A) (a' b' : list B) : length a = length a' -> combine (a ++ b) (a' ++ b') = combine a a' ++ combine b b'.
Proof. revert a'. induction a as [|x a IH]; intros [|y a'] H; try discriminate; [reflexivity|]. cbn. rewrite IH by (cbn in H; lia). reflexivity. Qed.
Lemma labels_not_a axes lab : In lab (labels (length axes)) -> length lab = length axes /\ lab <> all_a axes.
Proof. intros H. rewrite all_a_repeat. apply C08_labels_complete in H. exact H. Qed.
Lemma levels_adjoint F h s axes : Nat.Even F -> axes_ok s axes -> pos_axes axes -> forall level d x a cs, length cs = level ->
  let r := swtn (orthogonal_bank F h) true d level axes x in
  pairing s (length axes) (fst r) a (snd r) cs = adot s x (iswtg (orthogonal_bank F h) true d axes a cs).
Proof.
  intros He Hok Hp. induction level as [|level IH]; intros d x a cs Hl r.
  - destruct cs; [|discriminate]. unfold r, pairing. cbn. unfold lsum. cbn. ring.
  - destruct (exists_last (l := cs)) as (cs' & c & ->); [intros ->; discriminate|]. rewrite app_length in Hl. cbn [length] in Hl.
    unfold r. cbn [swtn fst snd]. unfold pairing. rewrite combine_app by (rewrite swtn_length; lia). rewrite lsum_app.
    rewrite iswtg_snoc. set (v := iswtg (orthogonal_bank F h) true (2 * d) axes a cs').
    specialize (IH (2 * d)%nat (swtn_band (orthogonal_bank F h) true d axes (all_a axes) x) a cs' ltac:(lia)). cbv zeta in IH.
    fold v in IH. unfold pairing in IH.
    rewrite <- Rplus_assoc, IH. unfold lsum at 1. cbn [combine fold_right fst snd].
    pose proof (level_adjoint F h true s d axes He Hok Hp x (with_approx axes v c)) as E. cbn [kappa] in E. rewrite pow1, Rmult_1_l in E.
    rewrite <- E, lsum_bools, with_approx_a. rewrite Rplus_0_r. apply f_equal. apply lsum_ext. intros lab Hlab.
    apply labels_not_a in Hlab. rewrite with_approx_d by tauto. reflexivity.
Qed.

(** * The operator *)
Definition valid_swt (t : swt_transform) : Prop :=
  Forall (fun a => (- Z.of_nat (length (st_shape t)) <= a < Z.of_nat (length (st_shape t)))%Z) (st_axes t) /\
  NoDup (map (norm_axis (length (st_shape t))) (st_axes t)) /\
  Forall (fun n => (0 < n)%nat) (st_shape t).
(** every transformed length is a multiple of 2^level *)
Definition aligned (t : swt_transform) : Prop :=
  Forall (fun a => Nat.divide (2 ^ st_level t) (axis_len (st_shape t) a)) (st_axes t).
Lemma norm_axis_lt nd a : (- Z.of_nat nd <= a < Z.of_nat nd)%Z -> (norm_axis nd a < nd)%nat.
Proof. intros H. unfold norm_axis. destruct (Z.ltb_spec a 0); lia. Qed.
Definition good (s : list nat) (an : list (nat * nat)) : Prop :=
  NoDup (map fst an) /\ axes_ok s an.
Lemma an_good t : valid_swt t -> good (st_shape t) (st_an t) /\ pos_axes (st_an t).
Proof.
  intros (Ha & Hn & Hp). unfold st_an. split; [split|].
  - rewrite map_map. exact Hn.
  - apply Forall_forall. intros an Hin. apply in_map_iff in Hin as (a & <- & Hin). cbn [fst snd]. split; [|reflexivity].
    apply norm_axis_lt. rewrite Forall_forall in Ha. apply Ha, Hin.
  - apply Forall_forall. intros an Hin. apply in_map_iff in Hin as (a & <- & Hin). cbn [fst snd]. unfold axis_len.
    rewrite Forall_forall in Hp, Ha. apply Hp, nth_In, norm_axis_lt, Ha, Hin.
Qed.
Definition grow1 (level : nat) (an : nat * nat) : nat * nat := (fst an, (snd an + swt_pad level (snd an))%nat).
Definition set_axes (an : list (nat * nat)) (s : list nat) : list nat := fold_left (fun s an => set_nth (fst an) (snd an) s) an s.
Lemma set_axes_length an : forall s, length (set_axes an s) = length s.
Proof. induction an as [|a r IH]; intros s; [reflexivity|]. unfold set_axes in *. cbn [fold_left]. rewrite IH. apply set_nth_length. Qed.
Lemma set_axes_other an : forall s k, ~ In k (map fst an) -> nth k (set_axes an s) 0%nat = nth k s 0%nat.
Proof.
  induction an as [|a r IH]; intros s k H; [reflexivity|]. unfold set_axes in *. cbn [fold_left]. cbn [map In] in H. rewrite IH by tauto.
  apply nth_set_other. intros E; apply H; left; auto.
Qed.
Lemma set_axes_ok an : forall s, NoDup (map fst an) -> Forall (fun a => (fst a < length s)%nat) an -> axes_ok (set_axes an s) an.
Proof.
  induction an as [|a r IH]; intros s Hnd Hr; [constructor|]. cbn [map] in Hnd. inversion Hnd as [|? ? Hni Hnd']; subst.
  inversion Hr as [|? ? Ha Hr']; subst. constructor.
  - rewrite set_axes_length. split; [exact Ha|]. unfold set_axes. cbn [fold_left]. fold (set_axes r (set_nth (fst a) (snd a) s)).
    rewrite set_axes_other by exact Hni. symmetry. apply nth_set_nth, Ha.
  - unfold set_axes. cbn [fold_left]. apply IH; [exact Hnd'|]. rewrite set_nth_length. exact Hr'.
Qed.
Lemma set_axes_id an : forall s, axes_ok s an -> set_axes an s = s.
Proof.
  induction an as [|a r IH]; intros s H; [reflexivity|]. inversion H as [|? ? [Ha Hn] H']; subst. unfold set_axes in *. cbn [fold_left].
  rewrite Hn, set_nth_nth. apply IH, H'.
Qed.
Lemma axes_ok_set s a v r : ~ In a (map fst r) -> axes_ok s r -> axes_ok (set_nth a v s) r.
Proof.
  intros Hni H. apply Forall_forall. intros b Hb. rewrite set_nth_length. unfold axes_ok in H. rewrite Forall_forall in H.
  destruct (H b Hb) as [H1 H2]. split; [exact H1|]. rewrite H2. symmetry. apply nth_set_other. intros E. apply Hni. rewrite <- E. apply in_map, Hb.
Qed.
Lemma inb_set_both s ax v i l : inb s l -> (i < v)%nat -> inb (set_nth ax v s) (set_nth ax i l).
Proof.
  intros H Hi. revert ax. induction H as [|a b l s Hab H IH]; intros ax; [destruct ax; constructor|].
  destruct ax as [|ax]; cbn [set_nth]; constructor; auto. apply IH.
Qed.
Lemma pad_l_le p : (swt_pad_l p <= p)%nat.
Proof. unfold swt_pad_l. assert ((p + 1) / 2 < S p)%nat; [apply Nat.div_lt_upper_bound; lia|lia]. Qed.
Lemma sh_inb level an : forall s l, good s an -> inb s l -> inb (set_axes (map (grow1 level) an) s) (sh level an l).
Proof.
  induction an as [|a r IH]; intros s l [Hnd Hok] Hl; [exact Hl|]. cbn [map] in Hnd. inversion Hnd as [|? ? Hni Hnd']; subst.
  inversion Hok as [|? ? [Ha Hn] Hok']; subst. cbn [map sh]. unfold set_axes. cbn [fold_left].
  fold (set_axes (map (grow1 level) r) (set_nth (fst (grow1 level a)) (snd (grow1 level a)) s)).
  rewrite sh1_sh by (intros b Hb E; apply Hni; rewrite E; apply in_map, Hb). apply IH.
  - split; [exact Hnd'|]. cbn [grow1 fst snd]. apply axes_ok_set; assumption.
  - cbn [grow1 fst snd]. unfold sh1. destruct (Nat.eqb_spec (swt_pad level (snd a)) 0) as [E|E].
    + rewrite E, Nat.add_0_r, Hn, set_nth_nth. exact Hl.
    + apply inb_set_both; [exact Hl|]. pose proof (inb_nth s (fst a) l Hl Ha). pose proof (pad_l_le (swt_pad level (snd a))). lia.
Qed.
(** cropping is the transpose of zero padding *)
Lemma del_set {A} ax (v : A) s : del ax (set_nth ax v s) = del ax s.
Proof. revert ax. induction s as [|a s IH]; intros [|ax]; cbn; try reflexivity. rewrite IH. reflexivity. Qed.
Lemma zero_pad_line n b h x (z : vec) : rsum (b + (n + h)) (fun i => np_pad PadConstant n b x i * z i) = rsum n (fun i => x i * z (b + i)%nat).
Proof.
  rewrite rsum_app, rsum_app. rewrite (rsum_zero b).
  - rewrite (rsum_zero h).
    + rewrite Rplus_0_l, Rplus_0_r. apply rsum_ext. intros i Hi. unfold np_pad.
      replace (Z.of_nat (b + i) - Z.of_nat b)%Z with (Z.of_nat i) by lia. rewrite pad_index_inside by exact Hi. reflexivity.
    + intros i Hi. unfold np_pad. cbn [pad_index].
      destruct ((0 <=? Z.of_nat (b + (n + i)) - Z.of_nat b) && (Z.of_nat (b + (n + i)) - Z.of_nat b <? Z.of_nat n))%Z%bool eqn:E; [|cbn [read]; ring].
      apply andb_prop in E as [E1 E2]. apply Z.leb_le in E1. apply Z.ltb_lt in E2. lia.
  - intros i Hi. unfold np_pad. cbn [pad_index]. replace (0 <=? Z.of_nat i - Z.of_nat b)%Z with false; [cbn [andb read]; ring|].
    symmetry. apply Z.leb_gt. lia.
Qed.
Lemma zero_pad_axis level s a x z : (fst a < length s)%nat -> snd a = nth (fst a) s 0%nat ->
  adot (set_nth (fst a) (snd (grow1 level a)) s) (swt_pad_axis PadConstant level x a) z = adot s x (fun l => z (sh1 level a l)).
Proof.
  intros Ha Hn. unfold swt_pad_axis, sh1. cbn [grow1 snd]. destruct (Nat.eqb_spec (swt_pad level (snd a)) 0) as [E|E].
  - rewrite E, Nat.add_0_r, Hn, set_nth_nth. reflexivity.
  - set (p := swt_pad level (snd a)) in *. unfold adot. rewrite (bsum_axis (set_nth _ _ s) (fst a)) by (rewrite set_nth_length; exact Ha). rewrite (bsum_axis s (fst a)) by exact Ha.
    rewrite del_set, nth_set_nth by exact Ha. apply bsum_ext. intros l Hl. apply inb_length in Hl. rewrite del_length in Hl by exact Ha.
    pose proof (C07_padded_length level (snd a)) as HH. cbv zeta in HH. destruct HH as (_ & _ & Hs & _). fold p in Hs.
    replace (snd a + p)%nat with (swt_pad_l p + (snd a + swt_pad_h p))%nat by lia.
    rewrite (rsum_ext _ _ (fun i => np_pad PadConstant (snd a) (swt_pad_l p) (fun j => x (ins (fst a) j l)) i * z (ins (fst a) i l)))
      by (intros; rewrite along_ins by lia; reflexivity).
    rewrite (zero_pad_line (snd a) (swt_pad_l p) (swt_pad_h p) (fun j => x (ins (fst a) j l)) (fun i => z (ins (fst a) i l))).
    rewrite <- Hn. apply rsum_ext. intros i Hi. rewrite nth_ins by lia. rewrite set_ins by lia. reflexivity.
Qed.
Lemma zero_pad_all level an : forall s x z, good s an ->
  adot (set_axes (map (grow1 level) an) s) (swt_pad_all PadConstant level an x) z = adot s x (swt_crop_all level an z).
Proof.
  intros s x z Hg. transitivity (adot s x (fun l => z (sh level an l)));
    [|apply bsum_ext; intros; rewrite crop_all_sh; reflexivity].
  revert s x z Hg. induction an as [|a r IH]; intros s x z [Hnd Hok]; [reflexivity|]. cbn [map] in Hnd. inversion Hnd as [|? ? Hni Hnd']; subst.
  inversion Hok as [|? ? [Ha Hn] Hok']; subst. unfold set_axes, swt_pad_all. cbn [map fold_left].
  fold (set_axes (map (grow1 level) r) (set_nth (fst (grow1 level a)) (snd (grow1 level a)) s)).
  fold (swt_pad_all PadConstant level r (swt_pad_axis PadConstant level x a)). rewrite IH.
  - cbn [grow1 fst]. rewrite zero_pad_axis by assumption. apply bsum_ext. intros l _. f_equal. cbn [sh].
    rewrite sh1_sh by (intros b Hb E; apply Hni; rewrite E; apply in_map, Hb). reflexivity.
  - split; [exact Hnd'|]. apply axes_ok_set; assumption.
Qed.
(** the packed array and the dictionaries read back from it *)
Lemma dict_row {A} n (x : list A) lvl i lab : nth_error (labels n) i = Some lab ->
  swt_unpack n x lvl lab = nth_error x (i + get_lvl_pos n lvl).
Proof.
  intros Hi. unfold swt_unpack. rewrite (dict_lookup (fun i => nth_error x (i + get_lvl_pos n lvl))) by apply labels_nodup.
  destruct (find _ _) as [[k b]|] eqn:E.
  - apply find_some in E. destruct E as [Hin Hp]. cbn [fst snd] in *. apply label_eqb_spec in Hp. subst b.
    apply in_combine_seq in Hin. destruct Hin as [Hk _]. rewrite Nat.sub_0_r in Hk. f_equal. f_equal.
    pose proof (labels_nodup n) as ND. rewrite NoDup_nth_error in ND. apply ND; [apply nth_error_Some; congruence|congruence].
  - exfalso. pose proof (find_none _ _ E (i, lab)) as Hf. cbn [snd] in Hf.
    assert (Ht : label_eqb lab lab = true) by (apply label_eqb_spec; reflexivity). rewrite Ht in Hf.
    assert (true = false); [|discriminate]. apply Hf.
    assert (Hk : (i < length (labels n))%nat) by (apply nth_error_Some; congruence).
    apply (nth_error_nth _ _ (@nil bool)) in Hi. rewrite <- Hi.
    replace i with (nth i (seq 0 (length (labels n))) 0%nat) at 1 by (rewrite seq_nth by lia; lia).
    rewrite <- combine_nth by (rewrite seq_length; reflexivity). apply nth_In. rewrite combine_length, seq_length. lia.
Qed.
Lemma row_bound level n lvl i : (1 <= lvl <= level)%nat -> (i < 2 ^ n - 1)%nat -> (i + get_lvl_pos n lvl < swt_rows level n)%nat.
Proof. intros H Hi. unfold get_lvl_pos, swt_rows. set (k := (2 ^ n - 1)%nat) in *. assert ((lvl - 1) * k + k <= level * k)%nat; [|lia]. nia. Qed.
Lemma st_dict_row t y lvl i lab : (1 <= lvl <= st_level t)%nat -> nth_error (labels (length (st_axes t))) i = Some lab ->
  st_dict t y lvl lab = fun l => y ((i + get_lvl_pos (length (st_axes t)) lvl)%nat :: l).
Proof.
  intros Hl Hi. unfold st_dict. rewrite (dict_row _ _ _ _ _ Hi).
  assert (Hk : (i < 2 ^ length (st_axes t) - 1)%nat) by (rewrite <- labels_length; apply nth_error_Some; congruence).
  pose proof (row_bound (st_level t) (length (st_axes t)) lvl i Hl Hk) as Hb.
  rewrite (nth_error_nth' _ 0%nat) by (rewrite seq_length; exact Hb). rewrite seq_nth by exact Hb. reflexivity.
Qed.
(** the operator without its padding: the coefficients of an array of the padded shape, stacked *)
Definition coeffs (t : swt_transform) (u : arr) : arr :=
  let r := swtn (st_bank t) (st_norm t) 1 (st_level t) (st_anp t) u in
  stack_rows (swt_pack (st_level t) (length (st_axes t)) (fst r) (fun lvl lab => nth (lvl - 1) (snd r) (fun _ _ => 0) lab)).
Definition uncoeffs (t : swt_transform) (y : arr) : arr :=
  iswtg (st_bank t) (st_norm t) 1 (st_anp t) (fun l => y (0%nat :: l)) (map (st_dict t y) (seq 1 (st_level t))).
Lemma nth_nth_error_some {A} (l : list A) n a d : nth_error l n = Some a -> nth n l d = a.
Proof. apply nth_error_nth. Qed.
Lemma coeffs_row t u lvl i lab l : (1 <= lvl <= st_level t)%nat -> nth_error (labels (length (st_axes t))) i = Some lab ->
  coeffs t u ((i + get_lvl_pos (length (st_axes t)) lvl)%nat :: l)
  = nth (lvl - 1) (snd (swtn (st_bank t) (st_norm t) 1 (st_level t) (st_anp t) u)) (fun _ _ => 0) lab l.
Proof.
  intros Hl Hi. unfold coeffs. cbv zeta. cbn [stack_rows].
  rewrite (nth_error_nth _ _ (fun _ => 0) (pack_slot (st_level t) (length (st_axes t)) _
    (fun lvl lab => nth (lvl - 1) (snd (swtn (st_bank t) (st_norm t) 1 (st_level t) (st_anp t) u)) (fun _ _ => 0) lab) lvl i lab Hl Hi)).
  reflexivity.
Qed.
Lemma anp_length t : length (st_anp t) = length (st_axes t).
Proof. unfold st_anp, st_an. rewrite !map_length. reflexivity. Qed.
Lemma lsum_rsum {A} (l : list A) d f : lsum l f = rsum (length l) (fun i => f (nth i l d)).
Proof.
  induction l as [|a l IH]; [reflexivity|]. cbn [length]. rewrite rsum_S_l. cbn [nth]. change (lsum (a :: l) f) with (f a + lsum l f).
  rewrite IH. reflexivity.
Qed.
Lemma nth_labels n i : (i < 2 ^ n - 1)%nat -> nth_error (labels n) i = Some (nth i (labels n) []).
Proof. intros H. apply nth_error_nth'. rewrite labels_length. exact H. Qed.
Lemma coeffs_pairing t s u y :
  let r := swtn (st_bank t) (st_norm t) 1 (st_level t) (st_anp t) u in
  adot (swt_rows (st_level t) (length (st_axes t)) :: s) (coeffs t u) y
  = pairing s (length (st_axes t)) (fst r) (fun l => y (0%nat :: l)) (snd r) (map (st_dict t y) (seq 1 (st_level t))).
Proof.
  intros r. set (n := length (st_axes t)). set (L := st_level t).
  assert (HL : length (snd r) = L) by apply swtn_length.
  unfold adot. cbn [bsum]. unfold swt_rows. rewrite Nat.add_1_r, rsum_S_l, rsum_mul. unfold pairing. apply f_equal2; [reflexivity|].
  rewrite (lsum_rsum (combine (snd r) (map (st_dict t y) (seq 1 (st_level t)))) ((fun _ _ => 0) : list bool -> arr, (fun _ _ => 0) : list bool -> arr)).
  rewrite combine_length, map_length, seq_length, HL. fold L. rewrite Nat.min_id. apply rsum_ext. intros i Hi.
  rewrite combine_nth by (rewrite map_length, seq_length; exact HL). cbn [fst snd].
  rewrite (lsum_rsum (labels n) []), labels_length. apply rsum_ext. intros j Hj. apply bsum_ext. intros l _.
  pose proof (nth_labels n j Hj) as Hlab.
  replace (S (i * (2 ^ n - 1) + j)) with (j + get_lvl_pos n (S i))%nat
    by (unfold get_lvl_pos; replace (S i - 1)%nat with i by lia; lia).
  pose proof (coeffs_row t u (S i) j _ l ltac:(unfold L in Hi; lia) Hlab) as R1. fold n r in R1. rewrite R1. replace (S i - 1)%nat with i by lia.
  rewrite (nth_indep (map (st_dict t y) (seq 1 L)) _ (st_dict t y 0%nat)) by (rewrite map_length, seq_length; exact Hi).
  rewrite map_nth, seq_nth by exact Hi. rewrite (st_dict_row t y (1 + i) j (nth j (labels n) []) ltac:(unfold L in Hi; lia) Hlab). reflexivity.
Qed.
Lemma uncoeffs_coeffs t s u : perfect_bank (st_bank t) -> axes_ok s (st_anp t) -> aeq s (uncoeffs t (coeffs t u)) u.
Proof.
  intros Hw Hok l Hl. rewrite <- (levels_pr (st_bank t) (st_norm t) s (st_anp t) Hw Hok (st_level t) 1 u l Hl).
  unfold uncoeffs. apply (iswtg_aeq (st_bank t) (st_norm t) s (st_anp t) Hok); [|intros l' _; reflexivity|exact Hl].
  set (r := swtn (st_bank t) (st_norm t) 1 (st_level t) (st_anp t) u).
  assert (HL : length (snd r) = st_level t) by apply swtn_length.
  assert (G : forall m k, (k + m = st_level t)%nat -> Forall2 (fun c c' => forall lab, length lab = length (st_anp t) -> lab <> all_a (st_anp t) -> aeq s (c lab) (c' lab))
    (map (st_dict t (coeffs t u)) (seq (S k) m)) (skipn k (snd r))).
  { induction m as [|m IH]; intros k Hk.
    - cbn. rewrite skipn_all2 by lia. constructor.
    - cbn [seq map]. destruct (skipn k (snd r)) as [|c rest] eqn:E.
      { apply (f_equal (@length _)) in E. rewrite skipn_length in E. cbn in E. lia. }
      assert (Ec : c = nth k (snd r) (fun _ _ => 0)).
      { assert (Hf : length (firstn k (snd r)) = k) by (apply firstn_length_le; lia).
        rewrite <- (firstn_skipn k (snd r)), app_nth2 by (rewrite Hf; apply le_n). rewrite Hf, Nat.sub_diag, E. reflexivity. }
      assert (Er : rest = skipn (S k) (snd r)).
      { clear - E. revert k E. generalize (snd r). induction l as [|a l IH]; intros [|k] E; cbn in *; try discriminate.
        - injection E as _ ->. reflexivity.
        - apply IH in E. exact E. }
      constructor; [|rewrite Er; apply IH; lia]. intros lab Hlen Hne l' _.
      assert (Hin : In lab (labels (length (st_axes t)))).
      { apply C08_labels_complete. rewrite all_a_repeat, anp_length in Hne. rewrite anp_length in Hlen. tauto. }
      apply In_nth_error in Hin as [i Hi]. rewrite (st_dict_row t (coeffs t u) (S k) i lab ltac:(lia) Hi).
      rewrite (coeffs_row t u (S k) i lab l' ltac:(lia) Hi). fold r. rewrite Ec. replace (S k - 1)%nat with k by lia. reflexivity. }
  exact (G (st_level t) 0%nat ltac:(lia)).
Qed.
Lemma uncoeffs_adjoint t s F h u y : st_bank t = orthogonal_bank F h -> st_norm t = true -> Nat.Even F ->
  axes_ok s (st_anp t) -> pos_axes (st_anp t) ->
  adot (swt_rows (st_level t) (length (st_axes t)) :: s) (coeffs t u) y = adot s u (uncoeffs t y).
Proof.
  intros Hw Hn He Hok Hp. pose proof (coeffs_pairing t s u y) as E. cbv zeta in E. rewrite E. unfold uncoeffs. rewrite Hw, Hn, <- anp_length.
  apply (levels_adjoint F h s (st_anp t) He Hok Hp (st_level t) 1 u). rewrite map_length, seq_length. reflexivity.
Qed.
Lemma anp_some t m : st_pad t = Some m -> st_anp t = map (grow1 (st_level t)) (st_an t).
Proof. intros H. unfold st_anp. apply map_ext. intros an. unfold st_grow. rewrite H. reflexivity. Qed.
Lemma anp_none t : st_pad t = None -> st_anp t = st_an t.
Proof. intros H. unfold st_anp. rewrite <- (map_id (st_an t)) at 2. apply map_ext. intros an. unfold st_grow. rewrite H. reflexivity. Qed.
Lemma fst_grow level an : map fst (map (grow1 level) an) = map fst an.
Proof. rewrite map_map. reflexivity. Qed.
Lemma padded_ok t : valid_swt t -> axes_ok (st_padded_shape t) (st_anp t) /\ pos_axes (st_anp t).
Proof.
  intros Hv. destruct (an_good t Hv) as [[Hnd Hok] Hp]. unfold st_padded_shape. fold (set_axes (st_anp t) (st_shape t)).
  destruct (st_pad t) as [m|] eqn:E.
  - rewrite (anp_some t m E). split.
    + apply set_axes_ok; [rewrite fst_grow; exact Hnd|]. apply Forall_forall. intros a Ha. apply in_map_iff in Ha as (b & <- & Hb).
      unfold axes_ok in Hok. rewrite Forall_forall in Hok. cbn [grow1 fst]. apply Hok, Hb.
    + apply Forall_forall. intros a Ha. apply in_map_iff in Ha as (b & <- & Hb). unfold pos_axes in Hp. rewrite Forall_forall in Hp.
      pose proof (Hp b Hb). cbn [grow1 snd]. lia.
  - rewrite (anp_none t E). rewrite set_axes_id by exact Hok. split; assumption.
Qed.
Lemma pad_zero_iff level n : swt_pad level n = 0%nat <-> Nat.divide (2 ^ level) n.
Proof.
  pose proof (C07_padded_length level n) as H. cbv zeta in H. destruct H as (H1 & H2 & _). split; intros H.
  - rewrite H, Nat.add_0_r in H1. exact H1.
  - specialize (H2 n (le_n n) H). lia.
Qed.
Lemma in_an t a : In a (st_axes t) -> In (norm_axis (length (st_shape t)) a, axis_len (st_shape t) a) (st_an t).
Proof. intros H. unfold st_an. apply in_map_iff. exists a. split; [reflexivity|exact H]. Qed.
Lemma swt_ok_iff t : swt_ok (st_level t) (st_anp t) = true <-> (st_pad t <> None \/ aligned t).
Proof.
  unfold swt_ok. rewrite forallb_forall. pose proof (pow2_pos (st_level t)) as Hp. split.
  - intros H. destruct (st_pad t) as [m|] eqn:E; [left; discriminate|right]. apply Forall_forall. intros a Ha.
    rewrite (anp_none t E) in H. specialize (H (norm_axis (length (st_shape t)) a, axis_len (st_shape t) a)).
    cbn [snd] in H. apply Nat.mod_divide; [lia|]. apply Nat.eqb_eq, H. apply in_an, Ha.
  - intros H an Hin. apply Nat.eqb_eq, Nat.mod_divide; [lia|]. destruct (st_pad t) as [m|] eqn:E.
    + rewrite (anp_some t m E) in Hin. apply in_map_iff in Hin as (b & <- & _). cbn [grow1 snd]. apply C07_padded_length.
    + rewrite (anp_none t E) in Hin. destruct H as [H|H]; [congruence|]. unfold aligned in H. rewrite Forall_forall in H.
      unfold st_an in Hin. apply in_map_iff in Hin as (a & <- & Ha). apply H, Ha.
Qed.
Lemma direct_coeffs t x : (st_pad t <> None \/ aligned t) -> st_op_direct t x = inr (coeffs t (st_prepare t x)).
Proof. intros H. apply swt_ok_iff in H. unfold st_op_direct, direct_swt. rewrite H. reflexivity. Qed.
Lemma adjoint_uncoeffs t y : st_op_adjoint t y =
  match st_pad t with None => uncoeffs t y | Some _ => swt_crop_all (st_level t) (st_an t) (uncoeffs t y) end.
Proof. unfold st_op_adjoint, inverse_swt, uncoeffs. rewrite iswtg_1. reflexivity. Qed.
Lemma adj_shape_eq t : st_adj_shape t = swt_rows (st_level t) (length (st_axes t)) :: st_padded_shape t.
Proof. reflexivity. Qed.

(** * C185: the transform is inverted exactly *)
(** For every perfect-reconstruction bank, level, set of axes, image shape, padding and normalisation: whenever the
    direct operator returns, applying the adjoint operator to the result gives the image back. *)
Theorem C185_perfect_reconstruction : forall t x, valid_swt t -> perfect_bank (st_bank t) -> (st_pad t <> None \/ aligned t) ->
  exists y, st_op_direct t x = inr y /\ aeq (st_shape t) (st_op_adjoint t y) x.
Proof.
  intros t x Hv Hw Hc. exists (coeffs t (st_prepare t x)). split; [apply direct_coeffs, Hc|]. intros l Hl.
  destruct (padded_ok t Hv) as [Hok _]. destruct (an_good t Hv) as [Hg _].
  pose proof (uncoeffs_coeffs t (st_padded_shape t) (st_prepare t x) Hw Hok) as HU.
  rewrite adjoint_uncoeffs. unfold st_prepare in *. destruct (st_pad t) as [m|] eqn:E.
  - rewrite crop_all_sh. rewrite HU.
    + destruct Hg as [Hnd Hax]. apply pad_all_sh; [exact Hnd|]. intros a Ha. unfold axes_ok in Hax. rewrite Forall_forall in Hax.
      destruct (Hax a Ha) as [H1 H2]. rewrite (inb_length _ _ Hl). split; [exact H1|]. rewrite H2. apply inb_nth; assumption.
    + unfold st_padded_shape. rewrite (anp_some t m E). apply sh_inb; assumption.
  - apply HU. unfold st_padded_shape. fold (set_axes (st_anp t) (st_shape t)). rewrite (anp_none t E), set_axes_id by apply Hg. exact Hl.
Qed.
(** Without padding on demand a size that is not a multiple of 2^level is refused; with it nothing is. *)
Theorem C185_when_it_runs : forall t x, (exists y, st_op_direct t x = inr y) <-> (st_pad t <> None \/ aligned t).
Proof.
  intros t x. split.
  - intros [y H]. apply swt_ok_iff. unfold st_op_direct, direct_swt in H. destruct (swt_ok _ _); [reflexivity|discriminate].
  - intros H. eexists. apply direct_coeffs, H.
Qed.
Theorem C185_refused : forall t x, st_pad t = None -> ~ aligned t -> st_op_direct t x = inl ValueError.
Proof.
  intros t x Hp Ha. unfold st_op_direct, direct_swt. destruct (swt_ok (st_level t) (st_anp t)) eqn:E; [|reflexivity].
  apply swt_ok_iff in E. tauto.
Qed.
(** Every orthogonal wavelet (scaling filter orthonormal to its even translates) qualifies. *)
Theorem C185_orthogonal_banks : forall F h, orthonormal_filter F h -> perfect_bank (orthogonal_bank F h).
Proof. exact orthogonal_perfect. Qed.
(** ... for instance Haar and Daubechies-2 *)
Definition haar : vec := fun _ => / sqrt 2.
Definition db2 : vec := fun k => nth k [(1 + sqrt 3) / (4 * sqrt 2); (3 + sqrt 3) / (4 * sqrt 2); (3 - sqrt 3) / (4 * sqrt 2); (1 - sqrt 3) / (4 * sqrt 2)] 0.
Lemma haar_orthonormal : orthonormal_filter 2 haar.
Proof.
  split; [exists 1%nat; lia|split; [lia|]]. intros m. pose proof Rlt_sqrt2_0. pose proof (sqrt_sqrt 2 ltac:(lra)) as E.
  assert (E2 : / sqrt 2 * / sqrt 2 = / 2) by (rewrite <- Rinv_mult, E; reflexivity).
  destruct m as [|m]; [cbn [rsum Nat.eqb Nat.add Nat.mul]; unfold haar; lra|]. cbn [Nat.eqb]. apply rsum_zero. intros k Hk. apply rsum_zero. intros j Hj.
  destruct (Nat.eqb_spec j (k + 2 * S m)); [lia|reflexivity].
Qed.
Lemma db2_orthonormal : orthonormal_filter 4 db2.
Proof.
  split; [exists 2%nat; lia|split; [lia|]]. intros m. pose proof Rlt_sqrt2_0. pose proof (sqrt_sqrt 2 ltac:(lra)) as E. pose proof (sqrt_sqrt 3 ltac:(lra)) as E3.
  set (c := / (4 * sqrt 2)). assert (Hc : c * c = / 32).
  { unfold c. rewrite <- Rinv_mult. f_equal. lra. }
  destruct m as [|[|m]].
  - cbn [rsum Nat.eqb Nat.add Nat.mul]; unfold db2, Rdiv; cbn [nth]; fold c.
    transitivity (c * c * (20 + 4 * (sqrt 3 * sqrt 3))); [ring|]. rewrite Hc, E3. field.
  - cbn [rsum Nat.eqb Nat.add Nat.mul]; unfold db2, Rdiv; cbn [nth]; fold c.
    transitivity (c * c * (6 - 2 * (sqrt 3 * sqrt 3))); [ring|]. rewrite E3. ring.
  - cbn [Nat.eqb]. apply rsum_zero. intros k Hk. apply rsum_zero. intros j Hj. destruct (Nat.eqb_spec j (k + 2 * S (S m))); [lia|reflexivity].
Qed.
(** a db2 transform of a 3 x 5 image, two levels along the last axis, edge padding: hypotheses met *)
Definition ex_swt (pad : option pad_mode) (norm : bool) : swt_transform := st_new [3; 5]%nat (orthogonal_bank 4 db2) 2 (Some [-1]%Z) pad norm.
Example C185_example : valid_swt (ex_swt (Some PadEdge) true) /\ perfect_bank (st_bank (ex_swt (Some PadEdge) true)) /\
  st_adj_shape (ex_swt (Some PadEdge) true) = [3; 3; 8]%nat /\ ~ aligned (ex_swt (Some PadEdge) true) /\
  st_adj_shape (st_new [4; 8]%nat (orthogonal_bank 4 db2) 2 None None true) = [7; 4; 8]%nat /\
  aligned (st_new [4; 8]%nat (orthogonal_bank 4 db2) 2 None None true).
Proof.
  split; [|split; [apply orthogonal_perfect, db2_orthonormal|]].
  - split; [|split]; cbn; repeat constructor; try lia. intros [].
  - split; [reflexivity|split; [|split; [reflexivity|]]].
    + intros H. inversion H as [|? ? H1 _]; subst. destruct H1 as [z Hz]. change (5 = z * 4)%nat in Hz. lia.
    + cbn. repeat constructor; [exists 1%nat|exists 2%nat]; reflexivity.
Qed.

(** * C186: direct and adjoint *)
Lemma adot_padded t F h u y : valid_swt t -> st_bank t = orthogonal_bank F h -> Nat.Even F -> st_norm t = true ->
  adot (st_adj_shape t) (coeffs t u) y = adot (st_padded_shape t) u (uncoeffs t y).
Proof. intros Hv Hw He Hn. destruct (padded_ok t Hv). apply (uncoeffs_adjoint t _ F h); assumption. Qed.
Lemma no_pad_mode level an m m' x : (forall a, In a an -> swt_pad level (snd a) = 0%nat) -> swt_pad_all m level an x = swt_pad_all m' level an x.
Proof.
  revert x. induction an as [|a r IH]; intros x H; [reflexivity|]. unfold swt_pad_all in *. cbn [fold_left].
  unfold swt_pad_axis at 2 4. rewrite (H a) by (left; reflexivity). cbn [Nat.eqb]. apply IH. intros b Hb. apply H. right. exact Hb.
Qed.
Lemma aligned_pads t : aligned t -> forall a, In a (st_an t) -> swt_pad (st_level t) (snd a) = 0%nat.
Proof.
  intros H a Ha. unfold st_an in Ha. apply in_map_iff in Ha as (b & <- & Hb). cbn [snd]. apply pad_zero_iff.
  unfold aligned in H. rewrite Forall_forall in H. apply H, Hb.
Qed.
Lemma prepare_adjoint t x z : valid_swt t -> (st_pad t = Some PadConstant \/ aligned t) ->
  adot (st_padded_shape t) (st_prepare t x) z
  = adot (st_shape t) x (match st_pad t with None => z | Some _ => swt_crop_all (st_level t) (st_an t) z end).
Proof.
  intros Hv Hc. destruct (an_good t Hv) as [Hg _]. unfold st_prepare, st_padded_shape. fold (set_axes (st_anp t) (st_shape t)).
  destruct (st_pad t) as [m|] eqn:E.
  - rewrite (anp_some t m E). rewrite <- (zero_pad_all (st_level t) (st_an t) (st_shape t) x z Hg).
    destruct Hc as [Hc|Hc]; [injection Hc as ->; reflexivity|]. rewrite (no_pad_mode _ _ m PadConstant x (aligned_pads t Hc)). reflexivity.
  - rewrite (anp_none t E), set_axes_id by apply Hg. reflexivity.
Qed.
(** With an orthogonal wavelet, the normalised transform and zero padding (or sizes that need none), the two operators
    are adjoint to each other: <W x, y> = <x, W' y> for all x and y. *)
Theorem C186_adjoint : forall t F h x y, valid_swt t -> st_bank t = orthogonal_bank F h -> Nat.Even F -> st_norm t = true ->
  (st_pad t = Some PadConstant \/ aligned t) ->
  exists d, st_op_direct t x = inr d /\ adot (st_adj_shape t) d y = adot (st_shape t) x (st_op_adjoint t y).
Proof.
  intros t F h x y Hv Hw He Hn Hc. exists (coeffs t (st_prepare t x)). split.
  - apply direct_coeffs. destruct Hc as [->|Hc]; [left; discriminate|right; exact Hc].
  - rewrite (adot_padded t F h) by assumption. rewrite (prepare_adjoint t x (uncoeffs t y) Hv Hc), adjoint_uncoeffs.
    destruct (st_pad t); reflexivity.
Qed.
Lemma bsum_unit s f p : inb s p -> bsum s (fun l => f l * (if list_eq_dec Nat.eq_dec l p then 1 else 0)) = f p.
Proof.
  revert f p. induction s as [|n s IH]; intros f p H.
  - inversion H; subst. cbn. ring.
  - destruct p as [|i p]; [inversion H|]. apply inb_cons in H as [Hi Hp]. cbn [bsum]. rewrite (rsum_single _ _ i Hi).
    + rewrite <- (IH (fun l => f (i :: l)) p Hp). apply bsum_ext. intros l _.
      destruct (list_eq_dec Nat.eq_dec (i :: l) (i :: p)), (list_eq_dec Nat.eq_dec l p); try reflexivity; congruence.
    + intros j _ Hj. transitivity (bsum s (fun _ => 0)); [|apply bsum_0]. apply bsum_ext. intros l _.
      destruct (list_eq_dec Nat.eq_dec (j :: l) (i :: p)); [congruence|ring].
Qed.
Lemma sh_nth level an : forall l a, NoDup (map fst an) -> In a an -> (fst a < length l)%nat ->
  nth (fst a) (sh level an l) 0%nat = (nth (fst a) l 0 + (if Nat.eqb (swt_pad level (snd a)) 0 then 0 else swt_pad_l (swt_pad level (snd a))))%nat.
Proof.
  assert (O : forall r l k, ~ In k (map fst r) -> nth k (sh level r l) 0%nat = nth k l 0%nat).
  { induction r as [|b r IH]; intros l k H; [reflexivity|]. cbn [sh map In] in *. unfold sh1. destruct (Nat.eqb _ 0); [apply IH; tauto|].
    rewrite nth_set_other by (intros E; apply H; left; auto). apply IH. tauto. }
  assert (L : forall r l, length (sh level r l) = length l).
  { induction r as [|b r IH]; intros l; [reflexivity|]. cbn [sh]. rewrite sh1_length. apply IH. }
  induction an as [|b r IH]; intros l a Hnd Hin Hl; [destruct Hin|]. cbn [map] in Hnd. inversion Hnd as [|? ? Hni Hnd']; subst.
  cbn [sh]. destruct Hin as [->|Hin].
  - unfold sh1. destruct (Nat.eqb _ 0); [rewrite O by exact Hni; lia|]. rewrite nth_set_nth by (rewrite L; exact Hl). rewrite O by exact Hni. lia.
  - rewrite <- IH by assumption. unfold sh1. destruct (Nat.eqb _ 0); [reflexivity|]. apply nth_set_other.
    intros E. apply Hni. rewrite <- E. apply in_map, Hin.
Qed.
Lemma pad_ones m level an : m <> PadConstant -> swt_pad_all m level an (fun _ => 1) = fun _ => 1.
Proof.
  intros Hm. induction an as [|a r IH]; [reflexivity|]. unfold swt_pad_all in *. cbn [fold_left].
  replace (swt_pad_axis m level (fun _ => 1) a) with (fun _ : list nat => 1); [exact IH|].
  apply functional_extensionality. intros l. unfold swt_pad_axis. destruct (Nat.eqb _ 0); [reflexivity|].
  unfold along, np_pad. destruct m; cbn [pad_index read]; try reflexivity. congruence.
Qed.
(** With any other padding mode - edge, the default - they are NOT adjoint as soon as something is padded. *)
Theorem C186_padding_refuted : forall t F h m, valid_swt t -> orthonormal_filter F h -> st_bank t = orthogonal_bank F h ->
  st_norm t = true -> st_pad t = Some m -> m <> PadConstant -> ~ aligned t ->
  exists x y d, st_op_direct t x = inr d /\ adot (st_adj_shape t) d y = 1 /\ adot (st_shape t) x (st_op_adjoint t y) = 0.
Proof.
  intros t F h m Hv Ho Hw Hn Hp Hm Ha. destruct (padded_ok t Hv) as [Hok Hpos]. destruct (an_good t Hv) as [[Hnd Hax] _].
  assert (Hbad : exists a, In a (st_an t) /\ swt_pad (st_level t) (snd a) <> 0%nat).
  { assert (G : forall l, (forall a, In a l -> In a (st_an t)) -> (exists a, In a l /\ swt_pad (st_level t) (snd a) <> 0%nat) \/ (forall a, In a l -> swt_pad (st_level t) (snd a) = 0%nat)).
    { induction l as [|a l IH]; intros Hl; [right; intros ? []|]. destruct (Nat.eq_dec (swt_pad (st_level t) (snd a)) 0) as [E|E].
      - destruct IH as [(b & Hb & Hb')|H]; [intros; apply Hl; right; assumption|left; exists b; split; [right|]; assumption|].
        right. intros b [<-|Hb]; auto.
      - left. exists a. split; [left; reflexivity|exact E]. }
    destruct (G (st_an t) ltac:(auto)) as [H|H]; [exact H|]. exfalso. apply Ha. apply Forall_forall. intros a Hin. apply pad_zero_iff.
    apply (H (norm_axis (length (st_shape t)) a, axis_len (st_shape t) a)). apply in_an, Hin. }
  destruct Hbad as (a & Hin & Hbad). set (p := repeat 0%nat (length (st_shape t))).
  set (e := fun l : list nat => if list_eq_dec Nat.eq_dec l p then 1 else 0).
  assert (Hpin : inb (st_padded_shape t) p).
  { apply inb_of_nth; [unfold p; rewrite repeat_length; unfold st_padded_shape; fold (set_axes (st_anp t) (st_shape t)); rewrite set_axes_length; reflexivity|].
    intros k Hk. unfold p. rewrite nth_repeat. unfold st_padded_shape in *. fold (set_axes (st_anp t) (st_shape t)) in *. rewrite set_axes_length in Hk.
    destruct (in_dec Nat.eq_dec k (map fst (st_anp t))) as [Hk'|Hk'].
    - apply in_map_iff in Hk' as (b & <- & Hb). unfold axes_ok in Hok. rewrite Forall_forall in Hok. destruct (Hok b Hb) as [_ <-].
      unfold pos_axes in Hpos. rewrite Forall_forall in Hpos. apply Hpos, Hb.
    - rewrite set_axes_other by exact Hk'. destruct Hv as (_ & _ & Hv). rewrite Forall_forall in Hv. apply Hv, nth_In, Hk. }
  exists (fun _ => 1), (coeffs t e), (coeffs t (st_prepare t (fun _ => 1))). split; [apply direct_coeffs; left; rewrite Hp; discriminate|].
  pose proof (uncoeffs_coeffs t (st_padded_shape t) e ltac:(rewrite Hw; apply orthogonal_perfect, Ho) Hok) as HU. split.
  - rewrite (adot_padded t F h) by (assumption || apply Ho). rewrite (adot_aeq _ _ (fun _ => 1) _ e); [| |exact HU].
    + unfold adot. unfold e. exact (bsum_unit _ (fun _ => 1) p Hpin).
    + intros l _. unfold st_prepare. rewrite Hp, pad_ones by exact Hm. reflexivity.
  - rewrite adjoint_uncoeffs, Hp. unfold adot. transitivity (bsum (st_shape t) (fun _ => 0)); [|apply bsum_0]. apply bsum_ext. intros l Hl.
    rewrite crop_all_sh. rewrite HU; [|unfold st_padded_shape; rewrite (anp_some t m Hp); apply sh_inb; [split; assumption|exact Hl]].
    unfold e. destruct (list_eq_dec Nat.eq_dec _ p) as [E|]; [|ring]. exfalso.
    unfold axes_ok in Hax. rewrite Forall_forall in Hax. destruct (Hax a Hin) as [H1 _].
    apply (f_equal (fun l => nth (fst a) l 0%nat)) in E. rewrite sh_nth in E by (try assumption; rewrite (inb_length _ _ Hl); exact H1).
    unfold p in E. rewrite nth_repeat in E. destruct (Nat.eqb_spec (swt_pad (st_level t) (snd a)) 0) as [E0|E0]; [lia|].
    assert (1 <= swt_pad_l (swt_pad (st_level t) (snd a)))%nat; [|lia]. unfold swt_pad_l. apply Nat.div_le_lower_bound; lia.
Qed.
(** So, for the normalised transform of an orthogonal wavelet, adjointness holds exactly for zero padding or aligned sizes. *)
Theorem C186_adjoint_iff : forall t F h m, valid_swt t -> orthonormal_filter F h -> st_bank t = orthogonal_bank F h ->
  st_norm t = true -> st_pad t = Some m ->
  ((forall x y d, st_op_direct t x = inr d -> adot (st_adj_shape t) d y = adot (st_shape t) x (st_op_adjoint t y))
   <-> (m = PadConstant \/ aligned t)).
Proof.
  intros t F h m Hv Ho Hw Hn Hp. split.
  - intros H. destruct m; [left; reflexivity| | | |]; right.
    all: apply Forall_forall; intros a Ha; destruct (Nat.eq_dec (swt_pad (st_level t) (axis_len (st_shape t) a)) 0) as [E|E]; [apply pad_zero_iff, E|]; exfalso.
    all: destruct (C186_padding_refuted t F h _ Hv Ho Hw Hn Hp ltac:(discriminate)) as (x & y & d & Hd & H1 & H0);
      [intros Hal; unfold aligned in Hal; rewrite Forall_forall in Hal; apply E, pad_zero_iff, Hal, Ha|];
      rewrite (H x y d Hd) in H1; lra.
  - intros Hc x y d Hd. destruct (C186_adjoint t F h x y Hv Hw ltac:(apply Ho) Hn) as (d' & Hd' & E).
    + destruct Hc as [->|Hc]; [left; exact Hp|right; exact Hc].
    + congruence.
Qed.
Example C186_example : exists x y d, let t := ex_swt (Some PadEdge) true in
  st_op_direct t x = inr d /\ adot (st_adj_shape t) d y <> adot (st_shape t) x (st_op_adjoint t y).
Proof.
  destruct C185_example as (Hv & _ & _ & Ha & _).
  destruct (C186_padding_refuted (ex_swt (Some PadEdge) true) 4 db2 PadEdge Hv db2_orthonormal eq_refl eq_refl eq_refl ltac:(discriminate) Ha) as (x & y & d & H1 & H2 & H3).
  exists x, y, d. cbv zeta. split; [exact H1|]. rewrite H2, H3. lra.
Qed.

(** * C187: energy *)
Lemma coeffs_energy t s u :
  let r := swtn (st_bank t) (st_norm t) 1 (st_level t) (st_anp t) u in
  adot (swt_rows (st_level t) (length (st_axes t)) :: s) (coeffs t u) (coeffs t u)
  = pairing s (length (st_axes t)) (fst r) (fst r) (snd r) (snd r).
Proof.
  intros r. pose proof (coeffs_pairing t s u (coeffs t u)) as E. cbv zeta in E. rewrite E. fold r. unfold pairing. apply f_equal2; [reflexivity|].
  assert (HL : length (snd r) = st_level t) by apply swtn_length.
  set (d0 := ((fun _ _ => 0) : list bool -> arr, (fun _ _ => 0) : list bool -> arr)).
  rewrite (lsum_rsum (combine (snd r) (map (st_dict t (coeffs t u)) (seq 1 (st_level t)))) d0), (lsum_rsum (combine (snd r) (snd r)) d0).
  rewrite !combine_length, map_length, seq_length, HL. apply rsum_ext. intros i Hi. rewrite Nat.min_id in Hi. unfold d0.
  rewrite !combine_nth by (rewrite ?map_length, ?seq_length; try exact HL; reflexivity). cbn [fst snd].
  apply lsum_ext. intros lab Hlab. apply In_nth_error in Hlab as [j Hj]. apply bsum_ext. intros l _. f_equal.
  rewrite (nth_indep (map (st_dict t (coeffs t u)) (seq 1 (st_level t))) _ (st_dict t (coeffs t u) 0%nat)) by (rewrite map_length, seq_length; exact Hi).
  rewrite map_nth, seq_nth by exact Hi. rewrite (st_dict_row t (coeffs t u) (1 + i) j lab ltac:(lia) Hj).
  rewrite (coeffs_row t u (1 + i) j lab l ltac:(lia) Hj). fold r. replace (1 + i - 1)%nat with i by lia. reflexivity.
Qed.
Lemma adot_self_nonneg s x : 0 <= adot s x x.
Proof. apply bsum_nonneg. intros. nra. Qed.
Lemma level_energy F h norm s d axes x : orthonormal_filter F h -> axes_ok s axes -> pos_axes axes ->
  let w := orthogonal_bank F h in
  adot s (swtn_band w norm d axes (all_a axes) x) (swtn_band w norm d axes (all_a axes) x)
  + lsum (labels (length axes)) (fun lab => adot s (swtn_band w norm d axes lab x) (swtn_band w norm d axes lab x))
  = kappa norm ^ length axes * adot s x x.
Proof.
  intros Ho Hok Hp w. rewrite <- (lsum_bools axes (fun lab => adot s (swtn_band w norm d axes lab x) (swtn_band w norm d axes lab x))).
  unfold w. rewrite (level_adjoint F h norm s d axes ltac:(apply Ho) Hok Hp x (fun lab => swtn_band (orthogonal_bank F h) norm d axes lab x)).
  apply f_equal. apply adot_aeq; [intros l _; reflexivity|]. apply level_pr; [apply orthogonal_perfect, Ho|exact Hok].
Qed.
Lemma lsum_nn {A} (l : list A) f : (forall a, In a l -> 0 <= f a) -> 0 <= lsum l f.
Proof. induction l as [|a l IH]; intros H; unfold lsum in *; cbn; [lra|]. pose proof (H a ltac:(left; reflexivity)). specialize (IH ltac:(intros; apply H; right; assumption)). lra. Qed.
Lemma lsum_one {A} (a : A) f : lsum [a] f = f a.
Proof. unfold lsum. cbn. ring. Qed.
Lemma levels_energy F h norm s axes : orthonormal_filter F h -> axes_ok s axes -> pos_axes axes ->
  1 <= kappa norm ^ length axes -> forall level d x,
  let r := swtn (orthogonal_bank F h) norm d level axes x in
  let E := pairing s (length axes) (fst r) (fst r) (snd r) (snd r) in
  adot s x x <= E /\ ((1 <= level)%nat -> kappa norm ^ length axes * adot s x x <= E) /\ E <= (kappa norm ^ length axes) ^ level * adot s x x.
Proof.
  intros Ho Hok Hp HK. set (K := kappa norm ^ length axes) in *. induction level as [|level IH]; intros d x r E.
  - unfold E, r, pairing. cbn [swtn fst snd combine pow]. unfold lsum. cbn [fold_right]. split; [lra|split; [lia|lra]].
  - pose proof (level_energy F h norm s d axes x Ho Hok Hp) as HE. cbv zeta in HE. fold K in HE.
    set (A := swtn_band (orthogonal_bank F h) norm d axes (all_a axes) x) in *.
    destruct (IH (2 * d)%nat A) as (I1 & _ & I2). cbv zeta in I1, I2.
    set (r' := swtn (orthogonal_bank F h) norm (2 * d) level axes A) in *.
    assert (EE : E = pairing s (length axes) (fst r') (fst r') (snd r') (snd r')
      + lsum (labels (length axes)) (fun lab => adot s (swtn_band (orthogonal_bank F h) norm d axes lab x) (swtn_band (orthogonal_bank F h) norm d axes lab x))).
    { unfold E, r. cbn [swtn fst snd]. fold A r'. unfold pairing. rewrite combine_app by reflexivity. rewrite lsum_app.
      cbn [combine]. rewrite lsum_one. cbn [fst snd]. ring. }
    set (D := lsum (labels (length axes)) (fun lab => adot s (swtn_band (orthogonal_bank F h) norm d axes lab x) (swtn_band (orthogonal_bank F h) norm d axes lab x))) in *.
    assert (HD : 0 <= D) by (apply lsum_nn; intros; apply adot_self_nonneg).
    pose proof (adot_self_nonneg s x) as Hx. pose proof (adot_self_nonneg s A) as HA. pose proof (pow_R1_Rle K level HK) as HKl.
    assert (Hlow : K * adot s x x <= E) by lra. split; [|split; [intros _; exact Hlow|]].
    + assert (1 * adot s x x <= K * adot s x x) by (apply Rmult_le_compat_r; assumption). lra.
    + rewrite EE. cbn [pow]. assert (D <= K ^ level * D) by (rewrite <- (Rmult_1_l D) at 1; apply Rmult_le_compat_r; assumption).
      replace (K * K ^ level * adot s x x) with (K ^ level * (K * adot s x x)) by ring. rewrite <- HE, Rmult_plus_distr_l. lra.
Qed.
Lemma kappa_ge norm n : 1 <= kappa norm ^ n.
Proof. destruct norm; cbn [kappa]; [rewrite pow1; lra|apply pow_R1_Rle; lra]. Qed.
Definition energy (s : list nat) (x : arr) : R := adot s x x.
Lemma prepare_energy t x : valid_swt t -> (st_pad t = Some PadConstant \/ aligned t) ->
  energy (st_padded_shape t) (st_prepare t x) = energy (st_shape t) x.
Proof.
  intros Hv Hc. unfold energy. rewrite (prepare_adjoint t x (st_prepare t x) Hv Hc). destruct (an_good t Hv) as [[Hnd Hax] _].
  unfold st_prepare. destruct (st_pad t) as [m|] eqn:E; [|reflexivity]. apply bsum_ext. intros l Hl. f_equal. rewrite crop_all_sh.
  apply pad_all_sh; [exact Hnd|]. intros a Ha. unfold axes_ok in Hax. rewrite Forall_forall in Hax.
  destruct (Hax a Ha) as [H1 H2]. rewrite (inb_length _ _ Hl). split; [exact H1|]. rewrite H2. apply inb_nth; assumption.
Qed.
Lemma direct_inv t x d : st_op_direct t x = inr d -> d = coeffs t (st_prepare t x).
Proof.
  intros H. assert (Hc : st_pad t <> None \/ aligned t) by (apply (C185_when_it_runs t x); eexists; exact H).
  rewrite direct_coeffs in H by exact Hc. congruence.
Qed.
(** Parseval: the normalised transform of an orthogonal wavelet preserves the energy of the (padded) image ... *)
Theorem C187_parseval : forall t F h x d, valid_swt t -> orthonormal_filter F h -> st_bank t = orthogonal_bank F h -> st_norm t = true ->
  st_op_direct t x = inr d ->
  energy (st_adj_shape t) d = energy (st_padded_shape t) (st_prepare t x) /\
  (st_pad t = Some PadConstant \/ aligned t -> energy (st_adj_shape t) d = energy (st_shape t) x).
Proof.
  intros t F h x d Hv Ho Hw Hn Hd. apply direct_inv in Hd. subst d.
  assert (E : energy (st_adj_shape t) (coeffs t (st_prepare t x)) = energy (st_padded_shape t) (st_prepare t x)).
  { unfold energy. rewrite (adot_padded t F h) by (assumption || apply Ho). destruct (padded_ok t Hv) as [Hok _].
    apply adot_aeq; [intros l _; reflexivity|]. apply uncoeffs_coeffs; [rewrite Hw; apply orthogonal_perfect, Ho|exact Hok]. }
  split; [exact E|]. intros Hc. rewrite E. apply prepare_energy; assumption.
Qed.
(** ... and the non-normalised one amplifies it: by at least 2^axes and at most 2^(axes*level). *)
Theorem C187_unnormalised_bounds : forall t F h x d, valid_swt t -> orthonormal_filter F h -> st_bank t = orthogonal_bank F h ->
  st_norm t = false -> (1 <= st_level t)%nat -> (st_pad t = Some PadConstant \/ aligned t) -> st_op_direct t x = inr d ->
  2 ^ length (st_axes t) * energy (st_shape t) x <= energy (st_adj_shape t) d <= 2 ^ (length (st_axes t) * st_level t) * energy (st_shape t) x.
Proof.
  intros t F h x d Hv Ho Hw Hn HL Hc Hd. apply direct_inv in Hd. subst d. rewrite <- (prepare_energy t x Hv Hc).
  destruct (padded_ok t Hv) as [Hok Hp]. unfold energy. rewrite adj_shape_eq.
  pose proof (coeffs_energy t (st_padded_shape t) (st_prepare t x)) as E. cbv zeta in E. rewrite E, Hw, Hn, <- anp_length.
  pose proof (levels_energy F h false (st_padded_shape t) (st_anp t) Ho Hok Hp (kappa_ge false _) (st_level t) 1 (st_prepare t x)) as G.
  cbv zeta in G. cbn [kappa] in G. rewrite pow_mult. split; apply G. exact HL.
Qed.
(** so direct and adjoint of the non-normalised transform are not adjoint to each other, for any non-zero image *)
Theorem C187_unnormalised_refuted : forall t F h x d, valid_swt t -> orthonormal_filter F h -> st_bank t = orthogonal_bank F h ->
  st_norm t = false -> (1 <= st_level t)%nat -> (1 <= length (st_axes t))%nat -> (st_pad t = Some PadConstant \/ aligned t) ->
  st_op_direct t x = inr d -> energy (st_shape t) x <> 0 ->
  adot (st_shape t) x (st_op_adjoint t d) < adot (st_adj_shape t) d d.
Proof.
  intros t F h x d Hv Ho Hw Hn HL HA Hc Hd Hx.
  destruct (C187_unnormalised_bounds t F h x d Hv Ho Hw Hn HL Hc Hd) as [Hlow _]. fold (energy (st_adj_shape t) d).
  assert (E : adot (st_shape t) x (st_op_adjoint t d) = energy (st_shape t) x).
  { destruct (C185_perfect_reconstruction t x Hv ltac:(rewrite Hw; apply orthogonal_perfect, Ho)) as (y & Hy & HPR).
    - destruct Hc as [Hc|Hc]; [left; rewrite Hc; discriminate|right; exact Hc].
    - rewrite Hd in Hy. injection Hy as <-. apply adot_aeq; [intros l _; reflexivity|exact HPR]. }
  rewrite E. assert (Hpos : 0 < energy (st_shape t) x) by (pose proof (adot_self_nonneg (st_shape t) x); unfold energy in *; lra).
  assert (2 <= 2 ^ length (st_axes t)).
  { destruct (length (st_axes t)) as [|k]; [lia|]. cbn [pow]. pose proof (pow_R1_Rle 2 k ltac:(lra)). lra. }
  assert (2 * energy (st_shape t) x <= 2 ^ length (st_axes t) * energy (st_shape t) x) by (apply Rmult_le_compat_r; lra). lra.
Qed.
(** The PDHG step condition of the normalised wavelet regulariser (sigma = 1, tau = the number of sub-bands,
    regularizers.py:664-668) therefore holds for zero padding or aligned sizes ... *)
Theorem C187_step_condition : forall t F h x d, valid_swt t -> orthonormal_filter F h -> st_bank t = orthogonal_bank F h -> st_norm t = true ->
  (st_pad t = Some PadConstant \/ aligned t) -> st_op_direct t x = inr d ->
  1 * energy (st_adj_shape t) d <= INR (swt_rows (st_level t) (length (st_axes t))) * energy (st_shape t) x.
Proof.
  intros t F h x d Hv Ho Hw Hn Hc Hd. destruct (C187_parseval t F h x d Hv Ho Hw Hn Hd) as [_ E]. rewrite (E Hc).
  apply Rmult_le_compat_r; [apply adot_self_nonneg|]. apply (le_INR 1). unfold swt_rows. rewrite Nat.add_comm. apply Nat.le_add_r.
Qed.
(** ... and fails with edge padding: for every level >= 3, a line of 2^level + 1 samples. *)
Definition edge_line (F : nat) (h : vec) (level : nat) : swt_transform :=
  st_new [(2 ^ level + 1)%nat] (orthogonal_bank F h) level None (Some PadEdge) true.
Lemma edge_line_valid F h level : valid_swt (edge_line F h level).
Proof. split; [|split]; cbn; repeat constructor; try lia; intros []. Qed.
Lemma count_le b n : (b < n)%nat -> rsum n (fun k => if Nat.leb k b then 1 else 0) = INR b + 1.
Proof.
  intros H. replace n with (S b + (n - S b))%nat by lia. rewrite rsum_app. rewrite (rsum_ext (S b) _ (fun _ => 1)).
  - rewrite rsum_const, S_INR, (rsum_zero (n - S b)); [ring|]. intros i Hi. replace (Nat.leb _ _) with false; [reflexivity|]. symmetry. apply Nat.leb_gt. lia.
  - intros i Hi. replace (Nat.leb i b) with true; [reflexivity|]. symmetry. apply Nat.leb_le. lia.
Qed.
Theorem C187_edge_step_refuted : forall F h level, orthonormal_filter F h -> (3 <= level)%nat ->
  exists x d, let t := edge_line F h level in st_op_direct t x = inr d /\
  INR (swt_rows (st_level t) (length (st_axes t))) * energy (st_shape t) x < 1 * energy (st_adj_shape t) d.
Proof.
  intros F h level Ho HL. set (t := edge_line F h level). set (x := fun l : list nat => if Nat.eqb (nth 0 l 0%nat) 0 then 1 else 0).
  exists x, (coeffs t (st_prepare t x)). cbv zeta. assert (Hd : st_op_direct t x = inr (coeffs t (st_prepare t x))) by (apply direct_coeffs; left; discriminate).
  split; [exact Hd|]. destruct (C187_parseval t F h x _ (edge_line_valid F h level) Ho eq_refl eq_refl Hd) as [E _]. rewrite E.
  set (P := (2 ^ level)%nat) in *. assert (HP : (8 <= P)%nat).
  { unfold P. replace level with (3 + (level - 3))%nat by lia. rewrite Nat.pow_add_r. pose proof (pow2_pos (level - 3)). cbn [Nat.pow Nat.mul Nat.add] in *. lia. }
  assert (Epad : swt_pad level (P + 1) = (P - 1)%nat).
  { unfold swt_pad. fold P. cbv zeta. assert (E1 : ((P + 1) mod P = 1)%nat).
    { replace (P + 1)%nat with (1 + 1 * P)%nat by lia. rewrite Nat.mod_add by lia. apply Nat.mod_small. lia. }
    rewrite E1. apply Nat.mod_small. lia. }
  assert (E2 : P = (2 * 2 ^ (level - 1))%nat).
  { unfold P. replace level with (S (level - 1)) at 1 by lia. reflexivity. }
  assert (EL : swt_pad_l (P - 1) = (2 ^ (level - 1))%nat).
  { unfold swt_pad_l. replace (P - 1 + 1)%nat with (2 ^ (level - 1) * 2)%nat by lia. apply Nat.div_mul. lia. }
  set (b := (2 ^ (level - 1))%nat) in *.
  assert (HS : st_padded_shape t = [(P + 1 + (P - 1))%nat]).
  { unfold st_padded_shape, st_anp, st_an, t, edge_line, st_new. cbn [st_axes st_axes_of default_axes length st_shape seq map st_pad st_level].
    unfold st_grow. cbn [st_pad st_level fst snd fold_left]. fold P. change (axis_len [(P + 1)%nat] _) with (P + 1)%nat. rewrite Epad. reflexivity. }
  assert (HQ : forall k, (k < P + 1 + (P - 1))%nat -> st_prepare t x [k] = if Nat.leb k b then 1 else 0).
  { intros k Hk. unfold st_prepare, st_an, t, edge_line, st_new. cbn [st_pad st_axes st_axes_of default_axes length st_shape seq map st_level].
    unfold swt_pad_all. cbn [fold_left]. unfold swt_pad_axis. cbn [fst snd]. fold P. change (axis_len [(P + 1)%nat] _) with (P + 1)%nat.
    rewrite Epad, EL. destruct (Nat.eqb_spec (P - 1) 0); [lia|]. change (norm_axis 1 _) with 0%nat. unfold along. cbn [set_nth nth].
    unfold np_pad. cbn [pad_index read]. unfold x. cbn [nth].
    destruct (Nat.eqb_spec (Z.to_nat (Z.max 0 (Z.min (Z.of_nat k - Z.of_nat b) (Z.of_nat (P + 1) - 1)))) 0), (Nat.leb_spec k b); try reflexivity; lia. }
  assert (EA : energy (st_padded_shape t) (st_prepare t x) = INR b + 1).
  { rewrite HS. unfold energy, adot. cbn [bsum]. rewrite <- (count_le b (P + 1 + (P - 1))) by lia. apply rsum_ext. intros k Hk.
    rewrite HQ by exact Hk. destruct (Nat.leb k b); ring. }
  assert (EX : energy (st_shape t) x = 1).
  { unfold t, edge_line, st_new. cbn [st_shape]. unfold energy, adot. cbn [bsum]. rewrite (rsum_single _ _ 0%nat); [unfold x; cbn; ring|lia|].
    intros i _ Hi. unfold x. cbn [nth]. destruct (Nat.eqb_spec i 0); [lia|ring]. }
  rewrite EA, EX. change (swt_rows (st_level t) (length (st_axes t))) with (level * (2 ^ 1 - 1) + 1)%nat. change (2 ^ 1 - 1)%nat with 1%nat.
  rewrite Nat.mul_1_r, plus_INR. cbn [INR]. rewrite Rmult_1_r, Rmult_1_l. apply Rplus_lt_compat_r, lt_INR. unfold b.
  clear - HL. replace (level - 1)%nat with (2 + (level - 3))%nat by lia. replace level with (3 + (level - 3))%nat at 1 by lia.
  generalize (level - 3)%nat. induction n as [|n IH]; [cbn; lia|]. cbn [Nat.pow Nat.add] in *. lia.
Qed.
Example C187_example : orthonormal_filter 4 db2 /\ orthonormal_filter 2 haar /\ valid_swt (ex_swt (Some PadConstant) false).
Proof. split; [exact db2_orthonormal|split; [exact haar_orthonormal|]]. split; [|split]; cbn; repeat constructor; try lia; intros []. Qed.

(** * C188: the stationary transform commutes with circular shifts of the image *)
Lemma along_shift_comm w norm s ax o b d an x : (ax < length s)%nat -> (fst an < length s)%nat -> snd an = nth (fst an) s 0%nat ->
  aeq s (along (fst an) (dec1 w norm b d (snd an)) (along ax (cshift (nth ax s 0%nat) o) x))
        (along ax (cshift (nth ax s 0%nat) o) (along (fst an) (dec1 w norm b d (snd an)) x)).
Proof.
  intros Hax Ha Hn l Hl. pose proof (inb_length s l Hl) as Hlen. pose proof (inb_nth s ax l Hl Hax) as Hi.
  destruct (Nat.eq_dec (fst an) ax) as [E|E].
  - subst ax. rewrite Hn, !along_along by lia. set (n := nth (fst an) s 0%nat) in *. set (u := fun j => x (set_nth (fst an) j l)).
    unfold dec1, swt_dec.
    change (cshift n o (fun i => rsum (wb_F w) (fun k => scaled (dec_scale norm) (wb_dec w b) k * cshift n (Z.of_nat d * (Z.of_nat (wb_F w / 2) - Z.of_nat k)) u i)) (nth (fst an) l 0%nat))
      with (rsum (wb_F w) (fun k => scaled (dec_scale norm) (wb_dec w b) k * cshift n o (cshift n (Z.of_nat d * (Z.of_nat (wb_F w / 2) - Z.of_nat k)) u) (nth (fst an) l 0%nat))).
    apply rsum_ext. intros k _. f_equal. rewrite !cshift_comp by lia. f_equal. ring.
  - unfold along, cshift.
    rewrite nth_set_other by exact E. f_equal. apply functional_extensionality. intros i.
    rewrite nth_set_other by (apply not_eq_sym, E). f_equal. apply set_nth_comm. apply not_eq_sym, E.
Qed.
Lemma cshift_along_aeq s ax o x y : (ax < length s)%nat -> aeq s x y ->
  aeq s (along ax (cshift (nth ax s 0%nat) o) x) (along ax (cshift (nth ax s 0%nat) o) y).
Proof. intros Hax H. apply along_aeq; [exact Hax| |exact H]. intros u v i Hp Hu. apply cshift_ext; assumption. Qed.
Lemma aeq_trans s x y z : aeq s x y -> aeq s y z -> aeq s x z.
Proof. intros H1 H2 l Hl. rewrite (H1 l Hl). apply H2, Hl. Qed.
Lemma band_shift w norm s ax o d axes : (ax < length s)%nat -> axes_ok s axes -> forall lab x,
  aeq s (swtn_band w norm d axes lab (along ax (cshift (nth ax s 0%nat) o) x))
        (along ax (cshift (nth ax s 0%nat) o) (swtn_band w norm d axes lab x)).
Proof.
  intros Hax. induction axes as [|an axes IH]; intros Hok lab x; [intros l _; reflexivity|].
  inversion Hok as [|? ? [Ha Hn] Hok']; subst. destruct lab as [|b lab]; [intros l _; reflexivity|]. cbn [swtn_band].
  apply (aeq_trans _ _ (swtn_band w norm d axes lab (along ax (cshift (nth ax s 0%nat) o) (along (fst an) (dec1 w norm b d (snd an)) x)))).
  - apply swtn_band_aeq; [exact Hok'|]. apply along_shift_comm; assumption.
  - apply IH, Hok'.
Qed.
Lemma swtn_aeq w norm s axes : axes_ok s axes -> forall level d x y, aeq s x y ->
  aeq s (fst (swtn w norm d level axes x)) (fst (swtn w norm d level axes y)) /\
  Forall2 (fun c c' => forall lab, aeq s (c lab) (c' lab)) (snd (swtn w norm d level axes x)) (snd (swtn w norm d level axes y)).
Proof.
  intros Hok. induction level as [|level IH]; intros d x y H; cbn [swtn fst snd]; [split; [exact H|constructor]|].
  destruct (IH (2 * d)%nat _ _ (swtn_band_aeq w norm s d axes Hok (all_a axes) x y H)) as [H1 H2]. split; [exact H1|].
  apply Forall2_app; [exact H2|]. constructor; [|constructor]. intros lab. apply swtn_band_aeq; assumption.
Qed.
Lemma F2_trans {A} (P : A -> A -> Prop) : (forall a b c, P a b -> P b c -> P a c) -> forall x y z, Forall2 P x y -> Forall2 P y z -> Forall2 P x z.
Proof. intros HP x y z H. revert z. induction H as [|a b x y Hab H IH]; intros z Hz; inversion Hz; subst; constructor; eauto. Qed.
Lemma swtn_shift w norm s ax o axes : (ax < length s)%nat -> axes_ok s axes -> forall level d x,
  let S := along ax (cshift (nth ax s 0%nat) o) in
  aeq s (fst (swtn w norm d level axes (S x))) (S (fst (swtn w norm d level axes x))) /\
  Forall2 (fun c c' => forall lab, aeq s (c lab) (c' lab)) (snd (swtn w norm d level axes (S x)))
    (map (fun c lab => S (c lab)) (snd (swtn w norm d level axes x))).
Proof.
  intros Hax Hok level d x Sh. revert d x. induction level as [|level IH]; intros d x; cbn [swtn fst snd map]; [split; [intros l _; reflexivity|constructor]|].
  destruct (IH (2 * d)%nat (swtn_band w norm d axes (all_a axes) x)) as [I1 I2].
  destruct (swtn_aeq w norm s axes Hok level (2 * d) _ _ (band_shift w norm s ax o d axes Hax Hok (all_a axes) x)) as [H1 H2].
  split; [exact (aeq_trans _ _ _ _ H1 I1)|]. rewrite map_app. apply Forall2_app.
  - apply (F2_trans _ (fun a b c P1 P2 lab => aeq_trans s _ _ _ (P1 lab) (P2 lab)) _ _ _ H2 I2).
  - constructor; [|constructor]. intros lab. apply band_shift; assumption.
Qed.
Lemma Forall2_nth_d {A B} (P : A -> B -> Prop) a b d d' : Forall2 P a b -> forall i, (i < length a)%nat -> P (nth i a d) (nth i b d').
Proof. induction 1 as [|x y a b H1 H2 IH]; intros [|i] Hi; cbn in *; try lia; [exact H1|]. apply IH. lia. Qed.
Lemma along_S_cons ax op y r l : along (S ax) op y (r :: l) = along ax op (fun l' => y (r :: l')) l.
Proof. reflexivity. Qed.
(** Shifting the image circularly along any axis, by any amount, shifts every sub-band by the same amount. *)
Theorem C188_shift_invariant : forall t ax o x d, valid_swt t -> aligned t -> (ax < length (st_shape t))%nat ->
  st_op_direct t x = inr d ->
  exists d', st_op_direct t (along ax (cshift (nth ax (st_shape t) 0%nat) o) x) = inr d' /\
    aeq (st_adj_shape t) d' (along (S ax) (cshift (nth ax (st_shape t) 0%nat) o) d).
Proof.
  intros t ax o x d Hv Hal Hax Hd. apply direct_inv in Hd. subst d. destruct (an_good t Hv) as [[Hnd Hok] _].
  eexists. split; [apply direct_coeffs; right; exact Hal|].
  assert (Hprep : forall u, st_prepare t u = u).
  { intros u. unfold st_prepare. destruct (st_pad t) as [m|]; [|reflexivity]. pose proof (aligned_pads t Hal) as Hz. revert u Hz.
    induction (st_an t) as [|a r IH]; intros u Hz; [reflexivity|]. unfold swt_pad_all in *. cbn [fold_left]. unfold swt_pad_axis at 2.
    rewrite (Hz a) by (left; reflexivity). cbn [Nat.eqb]. apply IH; [inversion Hnd; assumption|inversion Hok; assumption|]. intros b Hb. apply Hz. right. exact Hb. }
  assert (Hanp : st_anp t = st_an t).
  { unfold st_anp. rewrite <- (map_id (st_an t)) at 2. apply map_ext_in. intros a Ha. unfold st_grow. destruct (st_pad t); [|reflexivity].
    rewrite (aligned_pads t Hal a Ha), Nat.add_0_r. destruct a; reflexivity. }
  assert (Hshape : st_padded_shape t = st_shape t).
  { unfold st_padded_shape. fold (set_axes (st_anp t) (st_shape t)). rewrite Hanp. apply set_axes_id, Hok. }
  rewrite !Hprep. set (sft := along ax (cshift (nth ax (st_shape t) 0%nat) o)) in *.
  destruct (swtn_shift (st_bank t) (st_norm t) (st_shape t) ax o (st_an t) Hax Hok (st_level t) 1 x) as [H1 H2]. cbv zeta in H1, H2. fold sft in H1, H2.
  rewrite adj_shape_eq, Hshape. intros l Hl. destruct l as [|r l]; [inversion Hl|]. apply inb_cons in Hl as [Hr Hl].
  rewrite along_S_cons. fold sft. destruct (Nat.eq_dec r 0) as [->|Hr0].
  - unfold coeffs. cbv zeta. cbn [stack_rows swt_pack nth]. rewrite Hanp. apply H1, Hl.
  - destruct (C08_slots (st_level t) (length (st_axes t)) r ltac:(lia)) as (lvl & i & Hlvl & Hi & -> & _).
    pose proof (nth_labels (length (st_axes t)) i Hi) as Hlab. rewrite (coeffs_row t _ lvl i _ l Hlvl Hlab).
    assert (E : (fun l' => coeffs t x ((i + get_lvl_pos (length (st_axes t)) lvl)%nat :: l'))
      = nth (lvl - 1) (snd (swtn (st_bank t) (st_norm t) 1 (st_level t) (st_anp t) x)) (fun _ _ => 0) (nth i (labels (length (st_axes t))) [])).
    { apply functional_extensionality. intros l'. apply coeffs_row; assumption. }
    rewrite E, Hanp.
    pose proof (Forall2_nth_d _ _ _ (fun _ _ => 0) (fun lab : list bool => sft ((fun _ _ => 0) lab)) H2 (lvl - 1)%nat) as G.
    rewrite (map_nth (fun (c : list bool -> arr) lab => sft (c lab))) in G. apply G; [|exact Hl].
    rewrite swtn_length. lia.
Qed.
