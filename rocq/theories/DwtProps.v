(** Theorems C189-C191: the decimated wavelet transform. *)
From Coq Require Import String.
From Verif Require Import Sums Arrays PyErr DataTermsModel SolversModel OperatorsModel OperatorsLayoutProps Reindex WaveletsModel WaveletsProps DwtModel.
From Verif Require DataTermsProofs FourierOpProps.

(** * C189: the arguments the constructor accepts *)
(** The default padding mode is not a mode of the wavelet library: the constructor raises with default arguments. *)
Theorem C189_default_refuted : dwt_init default_pad = inl ValueError.
Proof. reflexivity. Qed.
(** Of the modes the documentation promises (all of numpy.pad's) exactly three are accepted. *)
Theorem C189_documented_modes_refuted : forall m, In m numpy_modes ->
  (dwt_init m = inr tt <-> m = "constant"%string \/ m = "reflect"%string \/ m = "symmetric"%string) /\ (dwt_init m <> inr tt -> dwt_init m = inl ValueError).
Proof.
  intros m H. unfold numpy_modes in H. cbn [In] in H.
  repeat (destruct H as [<-|H]; [split; [split; [intros E; try discriminate E; auto|intros [E|[E|E]]; try discriminate E; reflexivity]|intros E; try reflexivity; exfalso; apply E; reflexivity]|]).
  destruct H.
Qed.
(** In periodization mode the coefficient array has the size of the image when the sizes are multiples of 2^level. *)
Theorem C189_periodization_shape : forall level n F, Nat.divide (2 ^ level) n -> dwt_adj_len level n F "periodization" = n.
Proof.
  induction level as [|level IH]; intros n F [z ->]; [reflexivity|]. cbn [dwt_adj_len]. unfold dwt_coeff_len. cbn [String.eqb Ascii.eqb Bool.eqb].
  assert (E : ((z * 2 ^ S level + 1) / 2 = z * 2 ^ level)%nat).
  { replace (z * 2 ^ S level + 1)%nat with (1 + z * 2 ^ level * 2)%nat by (cbn [Nat.pow]; lia). rewrite Nat.div_add by lia. reflexivity. }
  rewrite E, IH by (exists z; reflexivity). cbn [Nat.pow]. lia.
Qed.
(** In any other mode it is larger whenever the filter has more than two taps. *)
Theorem C189_other_modes_larger : forall level n F mode, mode <> "periodization"%string -> (2 <= F)%nat -> (n <= dwt_adj_len level n F mode)%nat /\
  (4 <= F -> 1 <= level -> n < dwt_adj_len level n F mode)%nat.
Proof.
  intros level n F mode Hm HF. assert (E : forall n, dwt_coeff_len n F mode = ((n + F - 1) / 2)%nat).
  { intros k. unfold dwt_coeff_len. destruct (String.eqb_spec mode "periodization"); [contradiction|reflexivity]. }
  revert n. induction level as [|level IH]; intros n; [cbn; lia|]. cbn [dwt_adj_len]. rewrite E. destruct (IH ((n + F - 1) / 2)%nat) as [I1 _].
  pose proof (Nat.div_mod (n + F - 1) 2 ltac:(lia)). pose proof (Nat.mod_upper_bound (n + F - 1) 2 ltac:(lia)). lia.
Qed.
Example C189_example : dwt_adj_len 2 12 4 "periodization" = 12%nat /\ dwt_adj_len 2 12 4 "symmetric" = 17%nat.
Proof. split; reflexivity. Qed.

(** * C190 *)
Definition alternated (f : vec) : vec := fun k => (-1) ^ k * f k.
(** the alias-cancellation condition: H0(z) F0(-z) + H1(z) F1(-z) = 0 *)
Definition alias_free (w : wbank) : Prop := forall m,
  pconv (wb_F w) (alternated (wb_rec_lo w)) (wb_dec_lo w) m + pconv (wb_F w) (alternated (wb_rec_hi w)) (wb_dec_hi w) m = 0.
Lemma orthogonal_alias_free F h : Nat.Even F -> alias_free (orthogonal_bank F h).
Proof.
  intros [q Hq] m. cbn [orthogonal_bank wb_F wb_rec_lo wb_rec_hi wb_dec_lo wb_dec_hi].
  rewrite (pconv_comm F (alternated (qmf F h))). unfold pconv. rewrite <- rsum_plus. apply rsum_zero. intros k Hk. rewrite <- rsum_plus.
  apply rsum_zero. intros j Hj. destruct (Nat.eqb (k + j) m); [|ring]. unfold alternated, rev_filter, qmf.
  replace (F - 1 - (F - 1 - k))%nat with k by lia.
  assert (E : (-1) ^ (F - 1 - k) = - (-1) ^ k).
  { rewrite (sign_split (F - 1 - k) (k + 1) F) by lia. rewrite Hq, pow_mult. replace ((-1) ^ 2) with 1 by ring. rewrite pow1, pow_add. ring. }
  rewrite E. replace ((-1) ^ j * ((-1) ^ j * h (F - 1 - j)%nat)) with ((-1) ^ j * (-1) ^ j * h (F - 1 - j)%nat) by ring. rewrite sign_sq. ring.
Qed.
Lemma mod_sign a b n : (0 < n)%nat -> Nat.Even n -> (-1) ^ Z.to_nat ((Z.of_nat a - Z.of_nat b) mod Z.of_nat n) = (-1) ^ a * (-1) ^ b.
Proof.
  intros Hn [q Hq]. pose proof (Z.mod_pos_bound (Z.of_nat a - Z.of_nat b) (Z.of_nat n) ltac:(lia)) as Hb.
  pose proof (Z.div_mod (Z.of_nat a - Z.of_nat b) (Z.of_nat n) ltac:(lia)) as Hd.
  set (r := Z.to_nat ((Z.of_nat a - Z.of_nat b) mod Z.of_nat n)). set (c := ((Z.of_nat a - Z.of_nat b) / Z.of_nat n)%Z) in *.
  assert (Hr : Z.of_nat r = ((Z.of_nat a - Z.of_nat b) mod Z.of_nat n)%Z) by (unfold r; lia). rewrite <- Hr in Hd.
  assert (E2 : forall m, (-1) ^ (n * m) = 1) by (intros m; rewrite Hq, <- Nat.mul_assoc, pow_mult; replace ((-1) ^ 2) with 1 by ring; apply pow1).
  assert (E : (-1) ^ a = (-1) ^ (b + r)).
  { destruct (Z_le_gt_dec 0 c).
    - replace a with (n * Z.to_nat c + (b + r))%nat by nia. rewrite pow_add, E2. ring.
    - rewrite <- (Rmult_1_r ((-1) ^ a)), <- (E2 (Z.to_nat (- c))), <- pow_add. f_equal. nia. }
  rewrite E, pow_add. replace ((-1) ^ b * (-1) ^ r * (-1) ^ b) with ((-1) ^ b * (-1) ^ b * (-1) ^ r) by ring. rewrite sign_sq. ring.
Qed.
Lemma sign_even p : (1 + (-1) ^ p) / 2 = if Nat.even p then 1 else 0.
Proof.
  destruct (Nat.even p) eqn:E.
  - apply Nat.even_spec in E as [q ->]. rewrite pow_mult. replace ((-1) ^ 2) with 1 by ring. rewrite pow1. lra.
  - assert (Ho : Nat.odd p = true) by (rewrite <- Nat.negb_even, E; reflexivity). apply Nat.odd_spec in Ho as [q ->].
    rewrite pow_add, pow_mult. replace ((-1) ^ 2) with 1 by ring. rewrite pow1. lra.
Qed.
Lemma half_even n : Nat.Even n -> (n = 2 * (n / 2))%nat.
Proof. intros H. symmetry. apply even_half, H. Qed.
Lemma up_lo w n x p : Nat.Even n -> (p < n)%nat -> upsample (dwt1 w n x) p = (1 + (-1) ^ p) / 2 * swt_dec (wb_F w) (wb_dec_lo w) 1 n x p.
Proof.
  intros He Hp. rewrite sign_even. unfold upsample. destruct (Nat.even p) eqn:E; [|ring]. apply Nat.even_spec in E as [q ->].
  pose proof (half_even n He). unfold dwt1. rewrite (Nat.mul_comm 2 q), Nat.div_mul by lia. destruct (Nat.ltb_spec q (n / 2)); [|lia].
  rewrite (Nat.mul_comm q 2). ring.
Qed.
Lemma up_hi w n x p : Nat.Even n -> (p < n)%nat -> upsample (fun i => dwt1 w n x (n / 2 + i)%nat) p = (1 + (-1) ^ p) / 2 * swt_dec (wb_F w) (wb_dec_hi w) 1 n x p.
Proof.
  intros He Hp. rewrite sign_even. unfold upsample. destruct (Nat.even p) eqn:E; [|ring]. apply Nat.even_spec in E as [q ->].
  pose proof (half_even n He). unfold dwt1. rewrite (Nat.mul_comm 2 q), Nat.div_mul by lia. destruct (Nat.ltb_spec (n / 2 + q) (n / 2)); [lia|].
  replace (n / 2 + q - n / 2)%nat with q by lia. rewrite (Nat.mul_comm q 2). ring.
Qed.
Lemma rec_half F f g n x i : (0 < n)%nat -> Nat.Even n ->
  swt_rec F f 1 n (fun p => (1 + (-1) ^ p) / 2 * swt_dec F g 1 n x p) i
  = / 2 * swt_rec F f 1 n (swt_dec F g 1 n x) i
    + / 2 * ((-1) ^ (i + F / 2) * - rsum (2 * F) (fun m => pconv F (alternated f) g m * cshift n (Z.of_nat 1 * (2 * Z.of_nat (F / 2) - 1 - Z.of_nat m)) x i)).
Proof.
  intros Hn He. rewrite <- (rec_dec F (alternated f) g 1 n x i Hn). unfold swt_rec.
  rewrite <- rsum_opp, <- !rsum_scal, <- rsum_plus. apply rsum_ext. intros k Hk. set (o := (Z.of_nat 1 * (Z.of_nat (F / 2) - 1 - Z.of_nat k))%Z).
  unfold cshift at 1 2 3. set (p := Z.to_nat ((Z.of_nat i + o) mod Z.of_nat n)).
  assert (Es : (-1) ^ p = - (-1) ^ (i + F / 2) * (-1) ^ k).
  { unfold p, o. replace (Z.of_nat i + Z.of_nat 1 * (Z.of_nat (F / 2) - 1 - Z.of_nat k))%Z with (Z.of_nat (i + F / 2) - Z.of_nat (S k))%Z by lia.
    rewrite mod_sign by assumption. cbn [pow]. ring. }
  rewrite Es. unfold alternated. field.
Qed.
Lemma dwt1_pr w n x i : perfect_bank w -> alias_free w -> Nat.Even n -> (i < n)%nat -> idwt1 w n (dwt1 w n x) i = x i.
Proof.
  intros (Hev & HF & Hp) Ha He Hi. unfold idwt1.
  rewrite (rec_ext _ _ _ _ (upsample (dwt1 w n x)) (fun p => (1 + (-1) ^ p) / 2 * swt_dec (wb_F w) (wb_dec_lo w) 1 n x p))
    by (try lia; intros; apply up_lo; assumption).
  rewrite (rec_ext _ _ _ _ (upsample (fun i => dwt1 w n x (n / 2 + i)%nat)) (fun p => (1 + (-1) ^ p) / 2 * swt_dec (wb_F w) (wb_dec_hi w) 1 n x p))
    by (try lia; intros; apply up_hi; assumption).
  rewrite (rec_half (wb_F w) (wb_rec_lo w) (wb_dec_lo w) n x i ltac:(lia) He), (rec_half (wb_F w) (wb_rec_hi w) (wb_dec_hi w) n x i ltac:(lia) He).
  rewrite !rec_dec by lia. set (U := fun m => cshift n (Z.of_nat 1 * (2 * Z.of_nat (wb_F w / 2) - 1 - Z.of_nat m)) x i).
  assert (A : rsum (2 * wb_F w) (fun m => pconv (wb_F w) (wb_rec_lo w) (wb_dec_lo w) m * U m) + rsum (2 * wb_F w) (fun m => pconv (wb_F w) (wb_rec_hi w) (wb_dec_hi w) m * U m) = 2 * x i).
  { rewrite <- rsum_plus. rewrite (rsum_single _ _ (wb_F w - 1)%nat); [|lia|].
    - rewrite <- Rmult_plus_distr_r, Hp, Nat.eqb_refl. unfold U. replace (Z.of_nat 1 * _)%Z with 0%Z; [rewrite cshift_0 by exact Hi; ring|].
      pose proof (even_half _ Hev). lia.
    - intros m _ Hm. rewrite <- Rmult_plus_distr_r, Hp. destruct (Nat.eqb_spec m (wb_F w - 1)); [lia|ring]. }
  assert (B : rsum (2 * wb_F w) (fun m => pconv (wb_F w) (alternated (wb_rec_lo w)) (wb_dec_lo w) m * U m)
            + rsum (2 * wb_F w) (fun m => pconv (wb_F w) (alternated (wb_rec_hi w)) (wb_dec_hi w) m * U m) = 0).
  { rewrite <- rsum_plus. apply rsum_zero. intros m _. rewrite <- Rmult_plus_distr_r, Ha. ring. }
  set (a1 := rsum _ _) in A. set (a2 := rsum _ (fun m => pconv _ (wb_rec_hi w) _ m * U m)) in A. set (b1 := rsum _ _) in B. set (b2 := rsum _ (fun m => pconv _ (alternated (wb_rec_hi w)) _ m * U m)) in B.
  change (/ 2 * a1 + / 2 * ((-1) ^ (i + wb_F w / 2) * - b1) + (/ 2 * a2 + / 2 * ((-1) ^ (i + wb_F w / 2) * - b2)) = x i).
  transitivity (/ 2 * (a1 + a2) - / 2 * (-1) ^ (i + wb_F w / 2) * (b1 + b2)); [ring|]. rewrite A, B. field.
Qed.
(** ** one axis: transpose and converse inversion, for an orthogonal bank *)
Lemma up_dot n u v : Nat.Even n -> dot n u (upsample v) = rsum (n / 2) (fun i => u (2 * i)%nat * v i).
Proof.
  intros He. rewrite (half_even n He) at 1. rewrite (Nat.mul_comm 2). unfold dot. rewrite rsum_mul. apply rsum_ext. intros i _.
  cbn [rsum]. unfold upsample. rewrite !Nat.add_0_r.
  replace (Nat.even (i * 2)) with true by (symmetry; apply Nat.even_spec; exists i; lia).
  replace (Nat.even (i * 2 + 1)) with false by (rewrite <- Nat.negb_odd; symmetry; apply Bool.negb_false_iff, Nat.odd_spec; exists i; lia).
  rewrite Nat.div_mul by lia. rewrite (Nat.mul_comm i 2). ring.
Qed.
Lemma dot_plus_r n u v z : dot n u (fun i => v i + z i) = dot n u v + dot n u z.
Proof. unfold dot. rewrite <- rsum_plus. apply rsum_ext. intros; ring. Qed.
Lemma dwt1_transpose F h n x y : Nat.Even F -> Nat.Even n -> (0 < n)%nat ->
  dot n (dwt1 (orthogonal_bank F h) n x) y = dot n x (idwt1 (orthogonal_bank F h) n y).
Proof.
  intros HF He Hn. unfold idwt1. rewrite dot_plus_r. cbn [orthogonal_bank wb_F wb_rec_lo wb_rec_hi].
  rewrite <- (dec_transpose F (rev_filter F h) h 1 n x) by (try assumption; intros k Hk; unfold rev_filter; f_equal; lia).
  rewrite <- (dec_transpose F (rev_filter F (qmf F h)) (qmf F h) 1 n x) by (try assumption; intros k Hk; unfold rev_filter; f_equal; lia).
  rewrite !up_dot by exact He. unfold dot. rewrite (half_even n He) at 1. replace (2 * (n / 2))%nat with (n / 2 + n / 2)%nat by lia. rewrite rsum_app.
  apply f_equal2; apply rsum_ext; intros i Hi; unfold dwt1; cbn [orthogonal_bank wb_F wb_dec_lo wb_dec_hi].
  - destruct (Nat.ltb_spec i (n / 2)); [reflexivity|lia].
  - destruct (Nat.ltb_spec (n / 2 + i) (n / 2)); [lia|]. replace (n / 2 + i - n / 2)%nat with i by lia. reflexivity.
Qed.
Lemma dec_rec F g f n z i : (0 < n)%nat ->
  swt_dec F g 1 n (swt_rec F f 1 n z) i = rsum (2 * F) (fun m => pconv F g f m * cshift n (2 * Z.of_nat (F / 2) - 1 - Z.of_nat m) z i).
Proof.
  intros Hn. rewrite <- (pconv_sum F g f (fun m => cshift n (2 * Z.of_nat (F / 2) - 1 - Z.of_nat m) z i)).
  apply rsum_ext. intros k _. rewrite rsum_scal. f_equal.
  set (o := (Z.of_nat 1 * (Z.of_nat (F / 2) - Z.of_nat k))%Z).
  change (cshift n o (swt_rec F f 1 n z) i)
    with (rsum F (fun j => f j * cshift n o (cshift n (Z.of_nat 1 * (Z.of_nat (F / 2) - 1 - Z.of_nat j)) z) i)).
  apply rsum_ext. intros j _. f_equal. rewrite cshift_comp by exact Hn. f_equal. unfold o. lia.
Qed.
(** on even positions, an upsampled line sees only the odd coefficients of the product of the filters *)
Lemma cross_zero F g f n v i c : Nat.Even F -> (0 < F)%nat -> Nat.Even n -> (2 * i < n)%nat ->
  (forall m, (m < 2 * F)%nat -> Nat.Odd m -> pconv F g f m = if Nat.eqb m (F - 1) then c else 0) ->
  swt_dec F g 1 n (swt_rec F f 1 n (upsample v)) (2 * i)%nat = c * v i.
Proof.
  intros HF HF0 He Hi H. rewrite dec_rec by lia. rewrite (rsum_single _ _ (F - 1)%nat); [|lia|].
  - rewrite H; [|lia|destruct HF as [q ->]; exists (q - 1)%nat; lia]. rewrite Nat.eqb_refl. f_equal.
    replace (2 * Z.of_nat (F / 2) - 1 - Z.of_nat (F - 1))%Z with 0%Z by (pose proof (even_half F HF); lia). rewrite cshift_0 by exact Hi.
    unfold upsample. replace (Nat.even (2 * i)) with true by (symmetry; apply Nat.even_spec; exists i; lia).
    rewrite (Nat.mul_comm 2 i), Nat.div_mul by lia. reflexivity.
  - intros m Hm Hne. destruct (Nat.Even_or_Odd m) as [Hm'|Hm'].
    + unfold cshift, upsample. replace (Nat.even _) with false; [ring|]. symmetry. apply Bool.not_true_iff_false. intros E.
      pose proof (sign_even (Z.to_nat ((Z.of_nat (2 * i) + (2 * Z.of_nat (F / 2) - 1 - Z.of_nat m)) mod Z.of_nat n))) as S1. rewrite E in S1.
      replace (Z.of_nat (2 * i) + (2 * Z.of_nat (F / 2) - 1 - Z.of_nat m))%Z with (Z.of_nat (2 * (i + F / 2)) - Z.of_nat (1 + m))%Z in S1 by lia.
      rewrite mod_sign in S1 by (assumption || lia). destruct Hm' as [q ->]. rewrite (pow_mult (-1) 2 (i + F / 2)), (pow_add (-1) 1 (2 * q)), (pow_mult (-1) 2 q) in S1. replace ((-1) ^ 2) with 1 in S1 by ring.
      rewrite !pow1 in S1. lra.
    + rewrite H by assumption. destruct (Nat.eqb_spec m (F - 1)); [lia|ring].
Qed.
Lemma pconv_anti F f g m : (forall k j, (k < F)%nat -> (j < F)%nat -> (k + j)%nat = m -> f k * g j = - (f j * g k)) -> pconv F f g m = 0.
Proof.
  intros H. assert (E : pconv F f g m = - pconv F f g m); [|lra]. rewrite (pconv_comm F f g) at 2. unfold pconv. rewrite <- rsum_opp.
  apply rsum_ext. intros k Hk. rewrite <- rsum_opp. apply rsum_ext. intros j Hj. destruct (Nat.eqb_spec (k + j) m) as [E|E]; [|ring].
  rewrite (H k j Hk Hj E). ring.
Qed.
Lemma odd_sign k j m : Nat.Odd m -> (k + j)%nat = m -> (-1) ^ k = - (-1) ^ j.
Proof.
  intros [q ->] E. rewrite (sign_split k j (2 * q + 1)) by exact E. rewrite pow_add, pow_mult. replace ((-1) ^ 2) with 1 by ring. rewrite pow1. ring.
Qed.
Lemma lolo F h m : orthonormal_filter F h -> (m < 2 * F)%nat -> Nat.Odd m -> pconv F (rev_filter F h) h m = if Nat.eqb m (F - 1) then 1 else 0.
Proof.
  intros Ho Hm Hodd. pose proof Ho as (He & HF & Hoo). rewrite pconv_comm, pconv_rev by assumption. destruct He as [r Hr]. destruct Hodd as [q Hq].
  unfold acorr. destruct (Nat.leb_spec m (F - 1)).
  - replace (F - 1 - m)%nat with (2 * (r - 1 - q))%nat by lia. rewrite Hoo. destruct (Nat.eqb_spec (r - 1 - q) 0), (Nat.eqb_spec m (F - 1)); try lia; reflexivity.
  - replace (m - (F - 1))%nat with (2 * (q + 1 - r))%nat by lia. rewrite Hoo. destruct (Nat.eqb_spec (q + 1 - r) 0), (Nat.eqb_spec m (F - 1)); try lia; reflexivity.
Qed.
Lemma dec_plus F f d n u v i : swt_dec F f d n (fun j => u j + v j) i = swt_dec F f d n u i + swt_dec F f d n v i.
Proof. unfold swt_dec. rewrite <- rsum_plus. apply rsum_ext. intros k _. unfold cshift. ring. Qed.
Lemma dwt1_idwt1 F h n y i : orthonormal_filter F h -> Nat.Even n -> (i < n)%nat ->
  dwt1 (orthogonal_bank F h) n (idwt1 (orthogonal_bank F h) n y) i = y i.
Proof.
  intros Ho He Hi. pose proof Ho as (HFe & HF & _). pose proof (half_even n He) as Hh. unfold dwt1, idwt1.
  cbn [orthogonal_bank wb_F wb_dec_lo wb_dec_hi wb_rec_lo wb_rec_hi]. destruct (Nat.ltb_spec i (n / 2)).
  - rewrite dec_plus. rewrite (cross_zero F _ _ n y i 1 HFe HF He ltac:(lia)) by (intros m Hm Hodd; apply lolo; assumption).
    rewrite (cross_zero F _ _ n (fun i => y (n / 2 + i)%nat) i 0 HFe HF He ltac:(lia)); [ring|].
    intros m Hm Hodd. rewrite pconv_anti; [destruct (Nat.eqb _ _); reflexivity|]. intros k j Hk Hj E. unfold rev_filter, qmf. rewrite (odd_sign k j m Hodd E). ring.
  - rewrite dec_plus. rewrite (cross_zero F _ _ n y (i - n / 2) 0 HFe HF He ltac:(lia)).
    + rewrite (cross_zero F _ _ n (fun i => y (n / 2 + i)%nat) (i - n / 2) 1 HFe HF He ltac:(lia)).
      * rewrite Rmult_0_l, Rplus_0_l, Rmult_1_l. f_equal. lia.
      * intros m Hm Hodd. rewrite pconv_comm, pconv_qmf by assumption. rewrite (pconv_comm F h), lolo by assumption.
        destruct Hodd as [q ->]. rewrite pow_add, pow_mult. replace ((-1) ^ 2) with 1 by ring. rewrite pow1. destruct (Nat.eqb _ _); ring.
    + intros m Hm Hodd. rewrite pconv_anti; [destruct (Nat.eqb _ _); reflexivity|]. intros k j Hk Hj E. unfold rev_filter, qmf.
      replace (F - 1 - (F - 1 - k))%nat with k by lia. replace (F - 1 - (F - 1 - j))%nat with j by lia.
      assert (Ek : (-1) ^ (F - 1 - k) = - (-1) ^ (F - 1 - j)).
      { apply (odd_sign _ _ (2 * (F - 1) - m)); [|lia]. destruct Hodd as [q ->]. exists (F - 1 - q - 1)%nat. lia. }
      rewrite Ek. ring.
Qed.
(** ** one level *)
Definition even_axes (axes : list (nat * nat)) : Prop := Forall (fun an => Nat.Even (snd an)) axes.
Lemma dwt1_ext w n x y i : (0 < n)%nat -> (forall j, (j < n)%nat -> x j = y j) -> dwt1 w n x i = dwt1 w n y i.
Proof. intros Hn H. unfold dwt1. destruct (Nat.ltb i (n / 2)); apply dec_ext; assumption. Qed.
Lemma up_ext n u v p : Nat.Even n -> (forall j, (j < n / 2)%nat -> u j = v j) -> (p < n)%nat -> upsample u p = upsample v p.
Proof.
  intros He H Hp. unfold upsample. destruct (Nat.even p) eqn:E; [|reflexivity]. apply H. pose proof (half_even n He).
  apply Nat.even_spec in E as [q ->]. rewrite (Nat.mul_comm 2 q), Nat.div_mul; lia.
Qed.
Lemma idwt1_ext w n x y i : Nat.Even n -> (0 < n)%nat -> (forall j, (j < n)%nat -> x j = y j) -> idwt1 w n x i = idwt1 w n y i.
Proof.
  intros He Hn H. pose proof (half_even n He). unfold idwt1. f_equal; apply rec_ext; try assumption; intros j Hj; apply (up_ext n); try assumption; intros k Hk; apply H; lia.
Qed.
Lemma dwtn_level_aeq w s axes : axes_ok s axes -> forall x y, aeq s x y -> aeq s (dwtn_level w axes x) (dwtn_level w axes y).
Proof.
  induction axes as [|an axes IH]; intros Hok x y H; [exact H|]. inversion Hok as [|? ? [Ha Hn] Hok']; subst. unfold dwtn_level in *. cbn [fold_left].
  apply IH; [exact Hok'|]. apply along_aeq; [exact Ha| |exact H]. intros u v i Hp Hu. rewrite <- Hn in Hp, Hu. apply dwt1_ext; assumption.
Qed.
Lemma idwtn_level_aeq w s axes : axes_ok s axes -> even_axes axes -> forall x y, aeq s x y -> aeq s (idwtn_level w axes x) (idwtn_level w axes y).
Proof.
  induction axes as [|an axes IH]; intros Hok He x y H; [exact H|]. inversion Hok as [|? ? [Ha Hn] Hok']; inversion He as [|? ? He1 He']; subst.
  unfold idwtn_level in *. cbn [fold_right]. apply along_aeq; [exact Ha| |apply IH; assumption].
  intros u v i Hp Hu. rewrite <- Hn in Hp, Hu. apply idwt1_ext; assumption.
Qed.
Lemma dwtn_level_pr w s axes : perfect_bank w -> alias_free w -> axes_ok s axes -> even_axes axes -> forall x,
  aeq s (idwtn_level w axes (dwtn_level w axes x)) x.
Proof.
  intros Hw Haf. induction axes as [|an axes IH]; intros Hok He x; [intros l _; reflexivity|].
  inversion Hok as [|? ? [Ha Hn] Hok']; inversion He as [|? ? He1 He']; subst. unfold idwtn_level, dwtn_level in *. cbn [fold_left fold_right].
  apply (aeq_trans _ _ (along (fst an) (idwt1 w (snd an)) (along (fst an) (dwt1 w (snd an)) x))).
  - apply along_aeq; [exact Ha| |apply IH; assumption]. intros u v i Hp Hu. rewrite <- Hn in Hp, Hu. apply idwt1_ext; assumption.
  - intros l Hl. rewrite along_along by (rewrite (inb_length s l Hl); exact Ha). rewrite dwt1_pr; [rewrite set_nth_nth; reflexivity|assumption..|].
    rewrite Hn. apply inb_nth; assumption.
Qed.
Lemma dwtn_level_rp F h s axes : orthonormal_filter F h -> axes_ok s axes -> even_axes axes -> forall y,
  aeq s (dwtn_level (orthogonal_bank F h) axes (idwtn_level (orthogonal_bank F h) axes y)) y.
Proof.
  intros Ho. induction axes as [|an axes IH]; intros Hok He y; [intros l _; reflexivity|].
  inversion Hok as [|? ? [Ha Hn] Hok']; inversion He as [|? ? He1 He']; subst. unfold idwtn_level in *. cbn [fold_right].
  set (z := fold_right _ y axes) in *. change (aeq s (dwtn_level (orthogonal_bank F h) axes (along (fst an) (dwt1 (orthogonal_bank F h) (snd an)) (along (fst an) (idwt1 (orthogonal_bank F h) (snd an)) z))) y).
  apply (aeq_trans _ _ (dwtn_level (orthogonal_bank F h) axes z)); [|apply IH; assumption]. apply dwtn_level_aeq; [exact Hok'|].
  intros l Hl. rewrite along_along by (rewrite (inb_length s l Hl); exact Ha). rewrite dwt1_idwt1; [rewrite set_nth_nth; reflexivity|assumption..|].
  rewrite Hn. apply inb_nth; assumption.
Qed.
Lemma dwtn_level_adjoint F h s axes : Nat.Even F -> axes_ok s axes -> even_axes axes -> pos_axes axes -> forall x y,
  adot s (dwtn_level (orthogonal_bank F h) axes x) y = adot s x (idwtn_level (orthogonal_bank F h) axes y).
Proof.
  intros HF. induction axes as [|an axes IH]; intros Hok He Hp x y; [reflexivity|].
  inversion Hok as [|? ? [Ha Hn] Hok']; inversion He as [|? ? He1 He']; inversion Hp as [|? ? Hp1 Hp']; subst.
  unfold dwtn_level, idwtn_level in *. cbn [fold_left fold_right]. rewrite IH by assumption. apply along_adjoint; [exact Ha|].
  intros u v. rewrite <- Hn. apply dwt1_transpose; assumption.
Qed.
(** ** the corner *)
Definition fits (s : list nat) (axes : list (nat * nat)) : Prop :=
  NoDup (map fst axes) /\ Forall (fun an => (fst an < length s)%nat /\ (snd an <= nth (fst an) s 0)%nat) axes.
Lemma bsum_corner1 s ax m g : (ax < length s)%nat -> (m <= nth ax s 0)%nat ->
  bsum s (fun l => if Nat.ltb (nth ax l 0%nat) m then g l else 0) = bsum (set_nth ax m s) g.
Proof.
  intros Ha Hm. rewrite (bsum_axis s ax) by exact Ha. rewrite (bsum_axis (set_nth ax m s) ax) by (rewrite set_nth_length; exact Ha).
  rewrite del_set, nth_set_nth by exact Ha. apply bsum_ext. intros l Hl. apply inb_length in Hl. rewrite del_length in Hl by exact Ha.
  replace (nth ax s 0%nat) with (m + (nth ax s 0 - m))%nat by lia. rewrite rsum_app. rewrite (rsum_zero (nth ax s 0 - m)%nat).
  - rewrite Rplus_0_r. apply rsum_ext. intros i Hi. rewrite nth_ins by lia. destruct (Nat.ltb_spec i m); [reflexivity|lia].
  - intros i Hi. rewrite nth_ins by lia. destruct (Nat.ltb_spec (m + i) m); [lia|reflexivity].
Qed.
Lemma fits_set s a v r : ~ In a (map fst r) -> Forall (fun an => (fst an < length s)%nat /\ (snd an <= nth (fst an) s 0)%nat) r ->
  Forall (fun an => (fst an < length (set_nth a v s))%nat /\ (snd an <= nth (fst an) (set_nth a v s) 0)%nat) r.
Proof.
  intros Hni H. apply Forall_forall. intros b Hb. rewrite set_nth_length. rewrite Forall_forall in H. destruct (H b Hb) as [H1 H2]. split; [exact H1|].
  rewrite nth_set_other; [exact H2|]. intros E. apply Hni. rewrite <- E. apply in_map, Hb.
Qed.
Lemma bsum_corner axes : forall s g, fits s axes -> bsum s (fun l => if in_corner axes l then g l else 0) = bsum (set_axes axes s) g.
Proof.
  induction axes as [|a r IH]; intros s g [Hnd Hf]; [reflexivity|]. cbn [map] in Hnd. inversion Hnd as [|? ? Hni Hnd']; subst.
  inversion Hf as [|? ? [Ha Hm] Hf']; subst. unfold set_axes. cbn [fold_left]. fold (set_axes r (set_nth (fst a) (snd a) s)).
  rewrite <- IH by (split; [exact Hnd'|apply fits_set; assumption]). rewrite <- (bsum_corner1 s (fst a) (snd a)) by assumption. apply bsum_ext. intros l _.
  unfold in_corner. cbn [forallb]. destruct (Nat.ltb _ _); reflexivity.
Qed.
Lemma inb_corner axes s l : fits s axes -> (inb (set_axes axes s) l <-> inb s l /\ in_corner axes l = true).
Proof.
  intros [Hnd Hf]. revert s Hf. induction axes as [|a r IH]; intros s Hf; [cbn; tauto|]. cbn [map] in Hnd. inversion Hnd as [|? ? Hni Hnd']; subst.
  inversion Hf as [|? ? [Ha Hm] Hf']; subst. unfold set_axes. cbn [fold_left]. fold (set_axes r (set_nth (fst a) (snd a) s)).
  rewrite IH by (try assumption; apply fits_set; assumption). unfold in_corner. cbn [forallb]. rewrite Bool.andb_true_iff.
  assert (E : inb (set_nth (fst a) (snd a) s) l <-> inb s l /\ Nat.ltb (nth (fst a) l 0%nat) (snd a) = true); [|tauto].
  clear - Ha Hm. rewrite Nat.ltb_lt. revert l Ha Hm. generalize (fst a) (snd a). induction s as [|n s IH]; intros ax m l Ha Hm; [cbn in Ha; lia|].
  destruct ax as [|ax]; destruct l as [|i l]; cbn [set_nth nth] in *.
  - split; [intros H; inversion H|intros [H _]; inversion H].
  - rewrite !inb_cons. intuition lia.
  - split; [intros H; inversion H|intros [H _]; inversion H].
  - rewrite !inb_cons. cbn [length] in Ha. rewrite IH by (try assumption; lia). tauto.
Qed.
Lemma halve_fits s axes : NoDup (map fst axes) -> axes_ok s axes -> fits s (halve axes).
Proof.
  intros Hnd Hok. split.
  - unfold halve. rewrite map_map. exact Hnd.
  - apply Forall_forall. intros b Hb. unfold halve in Hb. apply in_map_iff in Hb as (a & <- & Ha). unfold axes_ok in Hok. rewrite Forall_forall in Hok.
    destruct (Hok a Ha) as [H1 H2]. cbn [fst snd]. split; [exact H1|]. rewrite <- H2. apply Nat.div_le_upper_bound; lia.
Qed.
Lemma halve_ok s axes : NoDup (map fst axes) -> axes_ok s axes -> axes_ok (set_axes (halve axes) s) (halve axes).
Proof.
  intros Hnd Hok. apply set_axes_ok; [unfold halve; rewrite map_map; exact Hnd|]. destruct (halve_fits s axes Hnd Hok) as [_ H].
  eapply Forall_impl; [|exact H]. cbn. tauto.
Qed.
(** every length a positive multiple of 2^level *)
Definition div_axes (level : nat) (axes : list (nat * nat)) : Prop := Forall (fun an => (0 < snd an)%nat /\ Nat.divide (2 ^ level) (snd an)) axes.
Lemma div_even level axes : div_axes (S level) axes -> even_axes axes /\ pos_axes axes /\ div_axes level (halve axes).
Proof.
  intros H. unfold div_axes in H. rewrite Forall_forall in H. split; [|split]; apply Forall_forall.
  - intros a Ha. destruct (H a Ha) as [_ [z Hz]]. exists (z * 2 ^ level)%nat. cbn [Nat.pow] in Hz. lia.
  - intros a Ha. apply H, Ha.
  - intros b Hb. unfold halve in Hb. apply in_map_iff in Hb as (a & <- & Ha). destruct (H a Ha) as [Hp [z Hz]]. cbn [snd]. cbn [Nat.pow] in Hz.
    assert (E : (snd a / 2 = z * 2 ^ level)%nat) by (rewrite Hz; replace (z * (2 * 2 ^ level))%nat with (z * 2 ^ level * 2)%nat by lia; apply Nat.div_mul; lia).
    rewrite E. split; [lia|exists z; reflexivity].
Qed.
(** ** all the levels *)
Lemma wavedecn_aeq w : forall level s axes, NoDup (map fst axes) -> axes_ok s axes -> forall x y, aeq s x y ->
  aeq s (wavedecn w level axes x) (wavedecn w level axes y).
Proof.
  induction level as [|level IH]; intros s axes Hnd Hok x y H; [exact H|]. intros l Hl. cbn [wavedecn].
  pose proof (dwtn_level_aeq w s axes Hok x y H) as HD. destruct (in_corner (halve axes) l) eqn:E; [|apply HD, Hl].
  pose proof (halve_fits s axes Hnd Hok) as Hf.
  apply (IH (set_axes (halve axes) s) (halve axes)); [unfold halve; rewrite map_map; exact Hnd|apply halve_ok; assumption| |apply inb_corner; auto].
  intros l' Hl'. apply (inb_corner _ _ _ Hf) in Hl'. apply HD. tauto.
Qed.
Lemma waverecn_aeq w : forall level s axes, NoDup (map fst axes) -> axes_ok s axes -> div_axes level axes -> forall x y, aeq s x y ->
  aeq s (waverecn w level axes x) (waverecn w level axes y).
Proof.
  induction level as [|level IH]; intros s axes Hnd Hok Hd x y H; [exact H|]. cbn [waverecn]. destruct (div_even level axes Hd) as (He & Hp & Hd').
  pose proof (halve_fits s axes Hnd Hok) as Hf.
  apply idwtn_level_aeq; [exact Hok|exact He|]. intros l Hl. destruct (in_corner (halve axes) l) eqn:E; [|apply H, Hl].
  apply (IH (set_axes (halve axes) s) (halve axes)); [unfold halve; rewrite map_map; exact Hnd|apply halve_ok; assumption|exact Hd'| |apply inb_corner; auto].
  intros l' Hl'. apply (inb_corner _ _ _ Hf) in Hl'. apply H. tauto.
Qed.
Lemma wave_pr w : perfect_bank w -> alias_free w -> forall level s axes, NoDup (map fst axes) -> axes_ok s axes -> div_axes level axes -> forall x,
  aeq s (waverecn w level axes (wavedecn w level axes x)) x.
Proof.
  intros Hw Haf. induction level as [|level IH]; intros s axes Hnd Hok Hd x; [intros l _; reflexivity|]. cbn [waverecn].
  destruct (div_even level axes Hd) as (He & Hp & Hd'). pose proof (halve_fits s axes Hnd Hok) as Hf.
  apply (aeq_trans _ _ (idwtn_level w axes (dwtn_level w axes x))); [|apply dwtn_level_pr; assumption].
  apply idwtn_level_aeq; [exact Hok|exact He|]. intros l Hl. destruct (in_corner (halve axes) l) eqn:E; [|cbn [wavedecn]; rewrite E; reflexivity].
  assert (Hnd' : NoDup (map fst (halve axes))) by (unfold halve; rewrite map_map; exact Hnd).
  assert (Hok' : axes_ok (set_axes (halve axes) s) (halve axes)) by (apply halve_ok; assumption).
  assert (Hl' : inb (set_axes (halve axes) s) l) by (apply inb_corner; auto).
  rewrite <- (IH (set_axes (halve axes) s) (halve axes) Hnd' Hok' Hd' (dwtn_level w axes x) l Hl').
  apply (waverecn_aeq w level _ _ Hnd' Hok' Hd'); [|exact Hl']. intros l2 Hl2. cbn [wavedecn]. apply (inb_corner _ _ _ Hf) in Hl2 as [_ E2].
  rewrite E2. reflexivity.
Qed.
Lemma wave_rp F h : orthonormal_filter F h -> forall level s axes, NoDup (map fst axes) -> axes_ok s axes -> div_axes level axes -> forall y,
  aeq s (wavedecn (orthogonal_bank F h) level axes (waverecn (orthogonal_bank F h) level axes y)) y.
Proof.
  intros Ho. induction level as [|level IH]; intros s axes Hnd Hok Hd y; [intros l _; reflexivity|]. intros l Hl. cbn [waverecn wavedecn].
  destruct (div_even level axes Hd) as (He & Hp & Hd'). pose proof (halve_fits s axes Hnd Hok) as Hf.
  set (w := orthogonal_bank F h) in *. set (z := fun l0 => if in_corner (halve axes) l0 then waverecn w level (halve axes) y l0 else y l0).
  pose proof (dwtn_level_rp F h s axes Ho Hok He z) as HZ. fold w in HZ.
  assert (Hnd' : NoDup (map fst (halve axes))) by (unfold halve; rewrite map_map; exact Hnd).
  assert (Hok' : axes_ok (set_axes (halve axes) s) (halve axes)) by (apply halve_ok; assumption).
  destruct (in_corner (halve axes) l) eqn:E.
  - assert (Hl' : inb (set_axes (halve axes) s) l) by (apply inb_corner; auto).
    rewrite <- (IH (set_axes (halve axes) s) (halve axes) Hnd' Hok' Hd' y l Hl').
    apply (wavedecn_aeq w level _ _ Hnd' Hok'); [|exact Hl']. intros l2 Hl2. apply (inb_corner _ _ _ Hf) in Hl2 as [Hl2 E2].
    rewrite (HZ l2 Hl2). unfold z. rewrite E2. reflexivity.
  - rewrite (HZ l Hl). unfold z. rewrite E. reflexivity.
Qed.
Lemma wave_adjoint F h : Nat.Even F -> forall level s axes, NoDup (map fst axes) -> axes_ok s axes -> div_axes level axes -> forall x y,
  adot s (wavedecn (orthogonal_bank F h) level axes x) y = adot s x (waverecn (orthogonal_bank F h) level axes y).
Proof.
  intros HF. induction level as [|level IH]; intros s axes Hnd Hok Hd x y; [reflexivity|]. cbn [waverecn wavedecn].
  destruct (div_even level axes Hd) as (He & Hp & Hd'). pose proof (halve_fits s axes Hnd Hok) as Hf.
  set (w := orthogonal_bank F h) in *. set (u := dwtn_level w axes x).
  assert (Hnd' : NoDup (map fst (halve axes))) by (unfold halve; rewrite map_map; exact Hnd).
  assert (Hok' : axes_ok (set_axes (halve axes) s) (halve axes)) by (apply halve_ok; assumption).
  specialize (IH (set_axes (halve axes) s) (halve axes) Hnd' Hok' Hd' u y).
  unfold w. rewrite <- (dwtn_level_adjoint F h s axes HF Hok He Hp). fold w u. unfold adot in *.
  transitivity (bsum s (fun l => if in_corner (halve axes) l then wavedecn w level (halve axes) u l * y l else 0) + bsum s (fun l => if in_corner (halve axes) l then 0 else u l * y l)).
  { rewrite <- bsum_plus. apply bsum_ext. intros l _. destruct (in_corner (halve axes) l); ring. }
  rewrite (bsum_corner (halve axes) s _ Hf), IH, <- (bsum_corner (halve axes) s _ Hf). rewrite <- bsum_plus. apply bsum_ext. intros l _.
  destruct (in_corner (halve axes) l); ring.
Qed.

(** ** The operator: the theorems of C190 *)
(** distinct axes within range, every transformed length a positive multiple of 2^level *)
Definition valid_dwt (t : dwt_transform) : Prop :=
  Forall (fun a => (- Z.of_nat (List.length (dw_shape t)) <= a < Z.of_nat (List.length (dw_shape t)))%Z) (dw_axes t) /\
  NoDup (map (norm_axis (List.length (dw_shape t))) (dw_axes t)) /\
  Forall (fun a => (0 < axis_len (dw_shape t) a)%nat /\ Nat.divide (2 ^ dw_level t) (axis_len (dw_shape t) a)) (dw_axes t).
Lemma dw_an_good t : valid_dwt t -> NoDup (map fst (dw_an t)) /\ axes_ok (dw_shape t) (dw_an t) /\ div_axes (dw_level t) (dw_an t).
Proof.
  intros (Ha & Hn & Hp). unfold dw_an. split; [|split].
  - rewrite map_map. exact Hn.
  - apply Forall_forall. intros an Hin. apply in_map_iff in Hin as (a & <- & Hin). cbn [fst snd]. split; [|reflexivity].
    apply norm_axis_lt. rewrite Forall_forall in Ha. apply Ha, Hin.
  - apply Forall_forall. intros an Hin. apply in_map_iff in Hin as (a & <- & Hin). cbn [snd]. rewrite Forall_forall in Hp. apply Hp, Hin.
Qed.
(** Analysis followed by synthesis gives the image back, for every perfect-reconstruction (possibly biorthogonal) bank. *)
Theorem C190_perfect_reconstruction : forall t x, valid_dwt t -> perfect_bank (dw_bank t) -> alias_free (dw_bank t) ->
  forall l, inb (dw_shape t) l -> dw_op_adjoint t (dw_op_direct t x) l = x l.
Proof.
  intros t x Hv Hp Ha l Hl. destruct (dw_an_good t Hv) as (H1 & H2 & H3). apply (wave_pr _ Hp Ha (dw_level t) (dw_shape t) (dw_an t) H1 H2 H3 x l Hl).
Qed.
Theorem C190_orthogonal_banks : forall F h, orthonormal_filter F h -> perfect_bank (orthogonal_bank F h) /\ alias_free (orthogonal_bank F h).
Proof. intros F h H. split; [apply orthogonal_perfect, H|apply orthogonal_alias_free, H]. Qed.
(** For an orthogonal wavelet the transform is an orthogonal matrix: its adjoint is the inverse transform, on both sides. *)
Theorem C190_adjoint : forall t F h x y, valid_dwt t -> dw_bank t = orthogonal_bank F h -> Nat.Even F ->
  adot (dw_shape t) (dw_op_direct t x) y = adot (dw_shape t) x (dw_op_adjoint t y).
Proof.
  intros t F h x y Hv Hb HF. destruct (dw_an_good t Hv) as (H1 & H2 & H3). unfold dw_op_direct, dw_op_adjoint. rewrite Hb. apply wave_adjoint; assumption.
Qed.
Theorem C190_orthogonal : forall t F h, valid_dwt t -> dw_bank t = orthogonal_bank F h -> orthonormal_filter F h ->
  (forall x l, inb (dw_shape t) l -> dw_op_adjoint t (dw_op_direct t x) l = x l) /\
  (forall y l, inb (dw_shape t) l -> dw_op_direct t (dw_op_adjoint t y) l = y l) /\
  (forall x y, adot (dw_shape t) (dw_op_direct t x) (dw_op_direct t y) = adot (dw_shape t) x y) /\
  (forall x y, adot (dw_shape t) (dw_op_adjoint t x) (dw_op_adjoint t y) = adot (dw_shape t) x y).
Proof.
  intros t F h Hv Hb Ho. pose proof (dw_an_good t Hv) as (H1 & H2 & H3). pose proof Ho as (HF & _).
  assert (P : forall x l, inb (dw_shape t) l -> dw_op_adjoint t (dw_op_direct t x) l = x l).
  { intros x l Hl. apply C190_perfect_reconstruction; rewrite ?Hb; try assumption; apply C190_orthogonal_banks, Ho. }
  assert (Q : forall y l, inb (dw_shape t) l -> dw_op_direct t (dw_op_adjoint t y) l = y l).
  { intros y l Hl. unfold dw_op_direct, dw_op_adjoint. rewrite Hb. apply (wave_rp F h Ho _ (dw_shape t)); assumption. }
  split; [exact P|split; [exact Q|split]]; intros x y.
  - rewrite (C190_adjoint t F h) by assumption. apply bsum_ext. intros l Hl. rewrite P by exact Hl. reflexivity.
  - rewrite <- (C190_adjoint t F h) by assumption. apply bsum_ext. intros l Hl. rewrite Q by exact Hl. reflexivity.
Qed.
(** a two-level Daubechies-2 transform of a 4 x 8 image, and one along the last axis of a 3 x 4 image *)
Example C190_example :
  valid_dwt (dw_new [4; 8]%nat (orthogonal_bank 4 db2) 2 None) /\ orthonormal_filter 4 db2 /\
  valid_dwt (dw_new [3; 4]%nat (orthogonal_bank 4 db2) 1 (Some [-1]%Z)) /\ ~ valid_dwt (dw_new [3; 4]%nat (orthogonal_bank 4 db2) 1 None).
Proof.
  split; [|split; [exact db2_orthonormal|split]].
  - split; [|split]; cbn; repeat constructor; try lia; try (cbn; intros H; decompose [or] H; try discriminate; contradiction).
    + exists 1%nat; reflexivity.
    + exists 2%nat; reflexivity.
  - split; [|split]; cbn; repeat constructor; try lia; try (cbn; intros H; decompose [or] H; try discriminate; contradiction).
    exists 2%nat; reflexivity.
  - intros (_ & _ & H). inversion H as [|? ? [_ H1] _]; subst. destruct H1 as [z Hz]. change (3 = z * 2)%nat in Hz. lia.
Qed.

(** * C191: the primal proximal step of the decimated-wavelet regulariser *)
(** the penalty: the weighted sum of the moduli of the coefficients, the approximation counted only if min_approx *)
(** the approximation band: along every transformed axis the first length / 2^level coefficients *)
Definition approx_band (t : dwt_transform) (l : list nat) : bool :=
  forallb (fun a => Nat.ltb (nth (norm_axis (List.length (dw_shape t)) a) l 0%nat * 2 ^ dw_level t) (axis_len (dw_shape t) a)) (dw_axes t).
Definition dwl_penalty (t : dwt_transform) (min_approx : bool) (weight : arr) (z : arr) : R :=
  bsum (dw_shape t) (fun l => if (approx_band t l && negb min_approx)%bool then 0 else weight l * Rabs (dw_op_direct t z l)).
Lemma approx_band_eq t l : valid_dwt t -> in_approx t l = approx_band t l.
Proof.
  intros (_ & _ & H). unfold in_approx, approx_band, quarter, dw_an, in_corner. induction H as [|a r [Hp [z Hz]] H IH]; [reflexivity|].
  cbn [map forallb fst snd]. rewrite IH. f_equal. rewrite Hz. set (P := (2 ^ dw_level t)%nat) in *.
  assert (HP : (0 < P)%nat) by (destruct P; [rewrite Nat.mul_0_r in Hz; lia|lia]). rewrite Nat.div_mul by lia.
  set (i := nth _ l 0%nat). destruct (Nat.ltb_spec i z), (Nat.ltb_spec (i * P) (z * P)); try reflexivity; exfalso; nia.
Qed.
Theorem C191_dwl_prox : forall t F h min_approx tau_weight thr x,
  valid_dwt t -> dw_bank t = orthogonal_bank F h -> orthonormal_filter F h -> Forall (fun n => (0 < n)%nat) (dw_shape t) ->
  0 <= thr -> (forall l, inb (dw_shape t) l -> tau_weight l = thr) ->
  FourierOpProps.is_prox_point (dw_shape t) (dwl_penalty t min_approx tau_weight) x (dwl_prox_primal t min_approx tau_weight x).
Proof.
  intros t F h ma tw thr x Hv Hb Ho Hs Ht Hw z. destruct (C190_orthogonal t F h Hv Hb Ho) as (P & Q & I & _). set (p := dwl_prox_primal t ma tw x).
  assert (ET : tw (repeat 0%nat (List.length (dw_shape t))) = thr).
  { apply Hw. clear - Hs. induction Hs as [|n s Hn Hs IH]; [constructor|]. cbn [List.length repeat]. apply inb_cons. split; assumption. }
  assert (D : forall a b, FourierOpProps.dist2 (dw_shape t) a b = FourierOpProps.dist2 (dw_shape t) (dw_op_direct t a) (dw_op_direct t b)).
  { intros a b. rewrite !FourierOpProps.dist2_adot, !I. reflexivity. }
  rewrite (D p x), (D z p), (D z x). unfold dwl_penalty, FourierOpProps.dist2. rewrite <- !bsum_scal, <- !bsum_plus. apply bsum_le. intros l Hl.
  assert (E : dw_op_direct t p l = if (in_approx t l && negb ma)%bool then dw_op_direct t x l else soft_threshold1 (dw_op_direct t x l) thr).
  { unfold p, dwl_prox_primal. rewrite Q by exact Hl. rewrite ET. reflexivity. }
  rewrite <- (approx_band_eq t l Hv). rewrite E, (Hw l Hl). set (c := dw_op_direct t x l). set (v := dw_op_direct t z l). destruct (in_approx t l && negb ma)%bool.
  - replace (c - c) with 0 by ring. lra.
  - pose proof (FourierOpProps.soft_1d c thr v Ht). lra.
Qed.
(** hypotheses met: the image of [C190_example], threshold 1/10 *)
Example C191_example : let t := dw_new [4; 8]%nat (orthogonal_bank 4 db2) 2 None in
  valid_dwt t /\ Forall (fun n => (0 < n)%nat) (dw_shape t) /\ approx_band t [0; 1]%nat = true /\ approx_band t [1; 0]%nat = false /\ approx_band t [0; 2]%nat = false.
Proof. split; [apply C190_example|]. split; [repeat constructor; lia|]. repeat split; reflexivity. Qed.
(** With a weight (or a step) that is not constant only its first entry is used: the result is not the proximal point. *)
Theorem C191_varying_weight_refuted : exists t F h min_approx tau_weight x z,
  valid_dwt t /\ dw_bank t = orthogonal_bank F h /\ orthonormal_filter F h /\ (forall l, 0 <= tau_weight l) /\
  let p := dwl_prox_primal t min_approx tau_weight x in
  1 / 2 * FourierOpProps.dist2 (dw_shape t) z x + dwl_penalty t min_approx tau_weight z
  < 1 / 2 * FourierOpProps.dist2 (dw_shape t) p x + dwl_penalty t min_approx tau_weight p.
Proof.
  set (t := dw_new [2]%nat (orthogonal_bank 2 haar) 1 None). set (e := fun l : list nat => match l with [1%nat] => 1 | _ => 0 end).
  exists t, 2%nat, haar, true, e, (dw_op_adjoint t e), (fun _ => 0).
  assert (Hv : valid_dwt t). { split; [|split]; cbn; repeat constructor; try lia; try (cbn; tauto). exists 1%nat; reflexivity. }
  split; [exact Hv|]. split; [reflexivity|]. split; [exact haar_orthonormal|]. split.
  { intros l. unfold e. destruct l as [|[|[|n]] [|? ?]]; lra. }
  destruct (C190_orthogonal t 2 haar Hv eq_refl haar_orthonormal) as (P & Q & I & _). cbv zeta.
  set (x := dw_op_adjoint t e). set (p := dwl_prox_primal t true e x).
  assert (Ep : forall l, inb (dw_shape t) l -> dw_op_direct t p l = e l).
  { intros l Hl. unfold p, dwl_prox_primal. rewrite Q by exact Hl. cbn [negb]. rewrite Bool.andb_false_r.
    change (e (repeat 0%nat (List.length (dw_shape t)))) with 0. rewrite <- (Q e l Hl). fold x.
    destruct (DataTermsProofs.soft_cases (dw_op_direct t x l) 0 ltac:(lra)) as [[H E]|[[H E]|[H E]]]; rewrite E; try lra.
    pose proof (Rabs_pos (dw_op_direct t x l)). assert (A : Rabs (dw_op_direct t x l) = 0) by lra.
    destruct (Req_dec (dw_op_direct t x l) 0) as [Z|Z]; [lra|]. apply Rabs_no_R0 in Z. contradiction. }
  assert (E0 : forall l, inb (dw_shape t) l -> dw_op_direct t (fun _ => 0) l = 0).
  { intros l Hl. assert (A : adot (dw_shape t) (dw_op_direct t (fun _ => 0)) (dw_op_direct t (fun _ => 0)) = 0).
    { rewrite I. unfold adot. change (dw_shape t) with [2%nat]. cbn [bsum rsum]. ring. }
    change (dw_shape t) with [2%nat] in A, Hl. unfold adot in A. cbn [bsum rsum] in A.
    destruct l as [|i [|? ?]]; [inversion Hl| |apply inb_length in Hl; discriminate Hl]. apply inb_cons in Hl as [Hi _].
    set (a := dw_op_direct t (fun _ => 0)) in *. pose proof (Rle_0_sqr (a [0%nat])). pose proof (Rle_0_sqr (a [1%nat])). unfold Rsqr in *.
    destruct i as [|[|i]]; [apply Rsqr_0_uniq; unfold Rsqr; lra|apply Rsqr_0_uniq; unfold Rsqr; lra|lia]. }
  assert (D : forall a b, FourierOpProps.dist2 (dw_shape t) a b = FourierOpProps.dist2 (dw_shape t) (dw_op_direct t a) (dw_op_direct t b)).
  { intros a b. rewrite !FourierOpProps.dist2_adot, !I. reflexivity. }
  rewrite (D p x), (D (fun _ => 0) x). unfold dwl_penalty. cbn [negb].
  assert (H0 : inb (dw_shape t) [0%nat]) by (apply inb_cons; split; [lia|constructor]).
  assert (H1 : inb (dw_shape t) [1%nat]) by (apply inb_cons; split; [lia|constructor]).
  pose proof (Q e [0%nat] H0) as Q0. pose proof (Q e [1%nat] H1) as Q1. fold x in Q0, Q1.
  unfold FourierOpProps.dist2. change (dw_shape t) with [2%nat] in *. cbn [bsum rsum].
  rewrite !Bool.andb_false_r. rewrite !E0, !Ep, Q0, Q1 by assumption. unfold e. rewrite Rabs_R0, !Rabs_R1. lra.
Qed.
