(** Theorem C75 and friends: cross-correlation finds the applied circular shift. *)
From Coq Require Import Reals Lra Lia List ZArith Bool.
Import ListNotations.
From Verif Require Import Sums Rounding PyErr Arrays Reindex ParamTuningModel ProcPreModel ProcPreProps Fourier FourierBox AlignFitModel AlignFitProps.
Open Scope R_scope.

(** ** specification *)
(** [d] is [p] moved by t on the torus of shape s *)
Definition moved (s : list nat) (t : list Z) (p d : arr) : Prop := forall l, inb s l -> d l = p (tadd s l (map Z.opp t)).
(** no translation of the torus but the trivial one leaves p unchanged *)
Definition aperiodic (s : list nat) (p : arr) : Prop :=
  forall j, inb s j -> (forall l, inb s l -> p (tadd s l (zl j)) = p l) -> j = repeat 0%nat (length s).
(** z is the signed representative of t modulo n *)
Definition signed (n : nat) (t z : Z) : Prop := (z mod Z.of_nat n = t mod Z.of_nat n)%Z /\ (- Z.of_nat n <= 2 * z < Z.of_nat n)%Z.
Fixpoint signed_all (s : list nat) (t z : list Z) : Prop :=
  match s, t, z with n :: s', a :: t', b :: z' => signed n a b /\ signed_all s' t' z' | [], [], [] => True | _, _, _ => False end.

(** ** argmax *)
Lemma argmax_from_spec cc l0 : forall ls best, (forall l, In l ls -> l <> l0 -> cc l < cc l0) -> (best <> l0 -> cc best < cc l0) ->
  In l0 ls \/ best = l0 -> argmax_from cc ls best = l0.
Proof.
  induction ls as [|l r IH]; intros best H Hb HI; cbn [argmax_from].
  - destruct HI as [[]|E]; exact E.
  - apply IH.
    + intros m Hm. apply H. now right.
    + destruct (Rlt_dec (cc best) (cc l)); [apply H; now left|exact Hb].
    + destruct HI as [[E|HI]|E]; [|now left|].
      * subst l. right. destruct (list_eq_dec_nat best l0) as [->|N]; [destruct (Rlt_dec _ _); reflexivity|]. destruct (Rlt_dec (cc best) (cc l0)); [reflexivity|].
        exfalso. apply n, Hb, N.
      * subst best. right. destruct (Rlt_dec (cc l0) (cc l)) as [L|L]; [|reflexivity]. destruct (list_eq_dec_nat l l0) as [->|N]; [reflexivity|].
        exfalso. specialize (H l (or_introl eq_refl) N). lra.
Qed.
Lemma argmax_unique s cc l0 : inb s l0 -> (forall l, inb s l -> l <> l0 -> cc l < cc l0) -> argmax s cc = l0.
Proof.
  intros I H. unfold argmax. assert (J : In l0 (idx s)) by (now apply in_idx). destruct (idx s) as [|l r] eqn:E; [destruct J|].
  apply argmax_from_spec.
  - intros m Hm. apply H. apply in_idx. rewrite E. now right.
  - apply H. apply in_idx. rewrite E. now left.
  - destruct J as [J|J]; [now right|now left].
Qed.

(** ** the correlation of a translated image *)
Definition spec_g (s : list nat) (wt : list nat -> R) (p : arr) (k : list nat) : R := wt k * cabs2 (dftN s (fun l => RtoC (p l)) k).
Definition ccz (s : list nat) (g : list nat -> R) (u : list Z) : R := / INR (size s) * bsum s (fun k => g k * fst (chi s k u)).
Lemma xc_spectrum_moved s t p d k : pos s -> length t = length s -> moved s t p d ->
  xc_spectrum s d p k = RtoC (cabs2 (dftN s (fun l => RtoC (p l)) k)) *c conj (chi s k t).
Proof.
  intros P L M. unfold xc_spectrum. set (Pk := dftN s (fun l => RtoC (p l)) k).
  rewrite (dftN_ext s (fun l => RtoC (d l)) (fun l => RtoC (p (tadd s l (map Z.opp t))))) by (intros l Hl; now rewrite (M l Hl)).
  rewrite (dftN_shift s (fun l => RtoC (p l)) t k P L). fold Pk. rewrite <- cabs2_conj. ring.
Qed.
Lemma fst_RtoC_mul r z : fst (RtoC r *c z) = r * fst z. Proof. unfold RtoC, Cmul. cbn [fst snd]. ring. Qed.
Lemma size_pos s : pos s -> 0 < INR (size s).
Proof. intros P. apply lt_0_INR, size_pos_of, P. Qed.
Lemma bin_term s t k v (P : pos s) : length t = length s -> length v = length s -> forall r,
  fst (RtoC r *c (RtoC 1 *c conj (chi s k t)) *c chi s k (zl (tor s v))) = r * fst (chi s k (zadd v (map Z.opp t))).
Proof.
  intros L Lv r. rewrite chi_tor by assumption. rewrite chi_add, chi_opp by (rewrite map_length; lia).
  unfold RtoC, Cmul. cbn [fst snd]. ring.
Qed.
Lemma chi_tneg' s k u : pos s -> inb s k -> length u = length s -> chi s (tneg s k) u = conj (chi s k u).
Proof.
  intros P I. revert u. induction I as [|i n k s Hi I IH]; intros [|b u] L; simpl in L; try lia; [symmetry; apply conj_C1|].
  inversion P; subst. unfold tneg. cbn [zl map tor chi]. rewrite w_imod by lia. rewrite Z.mul_opp_l, w_neg, conj_mul. f_equal. apply IH; [assumption|lia].
Qed.
Lemma cabs2_conj_eq z : cabs2 (conj z) = cabs2 z. Proof. unfold cabs2, conj. cbn [fst snd]. ring. Qed.
Lemma cabs_spectrum s t p d k : pos s -> length t = length s -> moved s t p d -> cabs (xc_spectrum s d p k) = cabs2 (dftN s (fun l => RtoC (p l)) k).
Proof.
  intros P L M. unfold cabs. rewrite (xc_spectrum_moved s t p d k P L M), cabs2_mul, cabs2_conj_eq, cabs2_chi.
  set (r := cabs2 (dftN s (fun l => RtoC (p l)) k)). assert (0 <= r) by apply cabs2_nonneg. unfold cabs2, RtoC. cbn [fst snd].
  replace ((r ^ 2 + 0 ^ 2) * 1) with (Rsqr r) by (unfold Rsqr; ring). apply sqrt_Rsqr. assumption.
Qed.
Lemma weight_pos nrm eps bins X k : 0 < eps -> 0 < xc_weight nrm eps bins X k.
Proof. intros H. destruct nrm; cbn [xc_weight]; [lra|..]; apply Rinv_0_lt_compat; eapply Rlt_le_trans; try exact H; apply Rmax_r. Qed.
Lemma weight_even nrm eps bins s t p d k : pos s -> length t = length s -> moved s t p d -> inb s k ->
  xc_weight nrm eps bins (xc_spectrum s d p) (tneg s k) = xc_weight nrm eps bins (xc_spectrum s d p) k.
Proof.
  intros P L M I. destruct nrm; cbn [xc_weight]; try reflexivity. rewrite !(cabs_spectrum s t) by assumption.
  now rewrite dftN_real, cabs2_conj_eq by assumption.
Qed.
(** the correlation at a point is a positive combination of cosines of the distance to the true shift; for the real transform
    this needs an even last axis *)
Definition rfft_ok (use_rfft : bool) (n : nat) : Prop := use_rfft = true -> exists m, n = (2 * m)%nat /\ (0 < m)%nat.
Definition weights (use_rfft : bool) nrm eps s' n d p := xc_weight nrm eps (xc_bins use_rfft s' n) (xc_spectrum (s' ++ [n]) d p).
Lemma xcorr_moved use_rfft nrm eps s' n t p d v : let s := s' ++ [n] in pos s -> length t = length s -> moved s t p d -> rfft_ok use_rfft n ->
  length v = length s ->
  xcorr use_rfft nrm eps s' n d p (tor s v) = ccz s (spec_g s (weights use_rfft nrm eps s' n d p) p) (zadd v (map Z.opp t)).
Proof.
  intros s P L M R Lv. unfold xcorr. fold s. unfold weights. fold s. set (W := xc_weight _ _ _ _).
  set (X := xc_spectrum s d p) in *. assert (EX : forall k, X k = RtoC (cabs2 (dftN s (fun l => RtoC (p l)) k)) *c conj (chi s k t)) by (intros; now apply xc_spectrum_moved).
  assert (T : forall k, fst (RtoC (W k) *c X k *c chi s k (zl (tor s v))) = spec_g s W p k * fst (chi s k (zadd v (map Z.opp t)))).
  { intros k. rewrite EX. unfold spec_g. set (r := cabs2 (dftN s (fun l => RtoC (p l)) k)). rewrite <- (bin_term s t k v P L Lv). unfold RtoC, Cmul. cbn [fst snd]. ring. }
  destruct use_rfft.
  - destruct (R eq_refl) as (m & Em & Hm). unfold irfftnN. assert (Eh : (n / 2 = m)%nat) by (rewrite Em, Nat.mul_comm; apply Nat.div_mul; lia).
    rewrite Eh. replace (2 * (m + 1 - 1))%nat with n by lia. fold s.
    rewrite (bsum_ext _ _ (fun k => hw (m + 1) (last k 0%nat) * (spec_g s W p k * fst (chi s k (zadd v (map Z.opp t)))))) by (intros k Hk; now rewrite T).
    unfold ccz. f_equal. unfold s. rewrite Em. apply (bsum_half s' m (fun k => spec_g (s' ++ [2 * m]%nat) W p k * fst (chi (s' ++ [2 * m]%nat) k (zadd v (map Z.opp t))))).
    + unfold pos, s in P. apply Forall_app in P. tauto.
    + exact Hm.
    + rewrite <- Em. fold s. intros k Hk. rewrite chi_tneg' by (try assumption; rewrite zadd_length; rewrite ?map_length; lia).
      unfold spec_g. rewrite dftN_real, cabs2_conj_eq by assumption. unfold W, X. rewrite (weight_even nrm eps _ s t p d k) by assumption. reflexivity.
  - unfold idftN. rewrite fst_RtoC_mul. unfold ccz. f_equal. unfold cbsum. cbn [fst]. apply bsum_ext. intros k Hk. apply T.
Qed.

(** ** the peak *)
Lemma bsum_diff_zero s f g : (forall k, inb s k -> f k <= g k) -> bsum s f = bsum s g -> forall k, inb s k -> f k = g k.
Proof.
  revert f g. induction s as [|n s IH]; intros f g H E k Hk.
  - inversion Hk; subst. exact E.
  - inversion Hk as [|i n0 l s0 Hi Hl]; subst. cbn [bsum] in E.
    assert (E1 : bsum s (fun l => f (i :: l)) = bsum s (fun l => g (i :: l))).
    { assert (Z0 : rsum n (fun i => bsum s (fun l => g (i :: l)) - bsum s (fun l => f (i :: l))) = 0) by (rewrite rsum_minus; lra).
      assert (NN : forall j, (j < n)%nat -> 0 <= bsum s (fun l => g (j :: l)) - bsum s (fun l => f (j :: l))).
      { intros j Hj. assert (bsum s (fun l => f (j :: l)) <= bsum s (fun l => g (j :: l))) by (apply bsum_le; intros l0 Hl0; apply H; constructor; assumption). lra. }
      pose proof (rsum_nonneg_zero n _ NN Z0 i Hi) as Q.
      cbv beta in Q. lra. }
    apply (IH (fun l => f (i :: l)) (fun l => g (i :: l))); [intros m Hm; apply H; now constructor|exact E1|exact Hl].
Qed.
Lemma ccz_le s g u : pos s -> (forall k, 0 <= g k) -> length u = length s -> ccz s g u <= ccz s g (repeat 0%Z (length s)) /\
  (ccz s g u = ccz s g (repeat 0%Z (length s)) -> forall k, inb s k -> g k <> 0 -> chi s k u = C1).
Proof.
  intros P G L. pose proof (size_pos s P) as N. assert (N' : 0 < / INR (size s)) by (now apply Rinv_0_lt_compat).
  assert (T : forall k, inb s k -> g k * fst (chi s k u) <= g k * fst (chi s k (repeat 0%Z (length s)))).
  { intros k Hk. rewrite chi_0. cbn [fst C1]. apply Rmult_le_compat_l; [apply G|apply chi_le1]. }
  unfold ccz. split.
  - apply Rmult_le_compat_l; [lra|]. now apply bsum_le.
  - intros E k Hk Hg. apply Rmult_eq_reg_l in E; [|lra]. pose proof (bsum_diff_zero s _ _ T E k Hk) as Q. cbv beta in Q.
    rewrite chi_0 in Q. cbn [fst C1] in Q. apply Rmult_eq_reg_l in Q; [|exact Hg]. now apply chi_eq1.
Qed.
Lemma tor_zl s l : inb s l -> tor s (zl l) = l.
Proof. induction 1 as [|i n l s Hi I IH]; [reflexivity|]. cbn [zl map tor]. f_equal; [now apply imod_small|exact IH]. Qed.
Lemma tor_add_tor s v u : pos s -> length v = length s -> length u = length s -> tor s (zadd (zl (tor s v)) u) = tor s (zadd v u).
Proof.
  revert v u. induction s as [|n s IH]; intros [|a v] [|b u] P Lv Lu; simpl in *; try lia; [reflexivity|]. inversion P; subst. f_equal.
  - apply imod_mod; [assumption|]. rewrite imod_of by assumption. rewrite Z.add_mod_idemp_l by lia. reflexivity.
  - apply IH; [assumption|lia|lia].
Qed.
Lemma zadd_comm t u : zadd t u = zadd u t.
Proof. revert u. induction t as [|a t IH]; intros [|b u]; simpl; try reflexivity. now rewrite IH, Z.add_comm. Qed.
Lemma zadd_opp t : zadd t (map Z.opp t) = repeat 0%Z (length t).
Proof. induction t as [|a t IH]; simpl; [reflexivity|]. rewrite IH. f_equal. lia. Qed.
Lemma cabs2_zero z : cabs2 z = 0 -> z = C0.
Proof. destruct z as [x y]. unfold cabs2, C0. cbn [fst snd]. intros H. f_equal; nra. Qed.
(** equality of the correlation with its peak forces a period *)
Lemma peak_period s wt p u : pos s -> (forall k, 0 < wt k) -> length u = length s ->
  ccz s (spec_g s wt p) u = ccz s (spec_g s wt p) (repeat 0%Z (length s)) -> forall l, inb s l -> p (tadd s l u) = p l.
Proof.
  intros P W L E.
  assert (G : forall k, 0 <= spec_g s wt p k) by (intros k; apply Rmult_le_pos; [left; apply W|apply cabs2_nonneg]).
  pose proof (proj2 (ccz_le s _ u P G L) E) as H.
  set (q := fun l => RtoC (p (tadd s l (map Z.opp (map Z.opp u))))).
  assert (D : forall k, inb s k -> dftN s q k = dftN s (fun l => RtoC (p l)) k).
  { intros k Hk. unfold q. rewrite (dftN_shift s (fun l => RtoC (p l)) (map Z.opp u) k P) by (now rewrite map_length).
    destruct (Req_EM_T (spec_g s wt p k) 0) as [Z0|Z0].
    - assert (Q : cabs2 (dftN s (fun l => RtoC (p l)) k) = 0) by (unfold spec_g in Z0; apply Rmult_integral in Z0 as [Z0|Z0]; [specialize (W k); lra|exact Z0]).
      assert (Q' : dftN s (fun l => RtoC (p l)) k = C0) by (now apply cabs2_zero). rewrite Q'. ring.
    - rewrite chi_opp, (H k Hk Z0), !conj_C1. ring. }
  intros l Hl. assert (E1 : q l = RtoC (p l)).
  { rewrite <- (idftN_dftN s q l Hl), <- (idftN_dftN s (fun l => RtoC (p l)) l Hl). apply idftN_ext. exact D. }
  unfold q in E1. rewrite map_opp_opp in E1. now apply (f_equal fst) in E1.
Qed.
Lemma zl_repeat0 n : zl (repeat 0%nat n) = repeat 0%Z n.
Proof. induction n; [reflexivity|]. cbn [repeat zl map]. now f_equal. Qed.
(** unit displacement along one axis *)
Definition eZ (len a : nat) (z : Z) : list Z := set_nth a z (repeat 0%Z len).
Lemma eZ_length len a z : length (eZ len a z) = len. Proof. unfold eZ. now rewrite set_nth_length, repeat_length. Qed.
Lemma zadd_0_r t n : length t = n -> zadd t (repeat 0%Z n) = t.
Proof. intros <-. induction t as [|a t IH]; simpl; [reflexivity|]. rewrite IH. f_equal. lia. Qed.
Lemma tor_step s t a z : pos s -> length t = length s -> (a < length s)%nat ->
  set_nth a (imod (nth a s 0%nat) (Z.of_nat (nth a (tor s t) 0%nat) + z)) (tor s t) = tor s (zadd t (eZ (length s) a z)).
Proof.
  revert t a. induction s as [|n s IH]; intros [|b t] a P L Ha; simpl in L, Ha; try lia. inversion P; subst. destruct a as [|a]; cbn [tor nth set_nth length eZ repeat zadd].
  - unfold eZ. cbn [repeat set_nth zadd tor]. f_equal.
    + apply imod_mod; [assumption|]. rewrite imod_of by assumption. rewrite Z.add_mod_idemp_l by lia. reflexivity.
    + now rewrite zadd_0_r by lia.
  - unfold eZ. cbn [repeat set_nth zadd tor]. rewrite Z.add_0_r. f_equal. apply IH; [assumption|lia|lia].
Qed.
Lemma eZ_opp len a z : map Z.opp (eZ len a z) = eZ len a (- z).
Proof.
  unfold eZ. revert a. induction len as [|len IH]; intros [|a]; cbn [repeat set_nth map]; try reflexivity.
  - f_equal. clear. induction len; cbn [repeat map]; [reflexivity|]. now rewrite IHlen.
  - f_equal. apply IH.
Qed.
Lemma tor_eZ_nonzero s a : pos s -> (a < length s)%nat -> (2 <= nth a s 0)%nat -> tor s (eZ (length s) a 1%Z) <> repeat 0%nat (length s).
Proof.
  revert a. induction s as [|n s IH]; intros a P Ha Hn; simpl in Ha; [lia|]. inversion P; subst. destruct a as [|a]; unfold eZ; cbn [repeat set_nth tor length nth] in *.
  - intros E. apply (f_equal (hd 0%nat)) in E. cbn [hd] in E. unfold imod in E. rewrite Z.mod_small in E by lia. simpl in E. lia.
  - intros E. apply (f_equal (@tl nat)) in E. cbn [tl] in E. apply (IH a); try assumption. lia.
Qed.
Lemma periodic_tor s (p : arr) u : pos s -> length u = length s -> (forall l, inb s l -> p (tadd s l u) = p l) ->
  forall l, inb s l -> p (tadd s l (zl (tor s u))) = p l.
Proof.
  intros P L H l Hl. rewrite <- (H l Hl). f_equal. unfold tadd. rewrite zadd_comm, tor_add_tor; [now rewrite zadd_comm|exact P|exact L|].
  rewrite zl_length. now apply inb_length.
Qed.
Lemma fftfreq_signed n t : (0 < n)%nat -> signed n t (fftfreq n (imod n t)).
Proof.
  intros H. unfold signed, fftfreq. pose proof (imod_lt n t H) as Hi. pose proof (imod_of n t H) as Ei. pose proof (Nat.div_mod (n - 1) 2 ltac:(lia)) as D. pose proof (Nat.mod_upper_bound (n - 1) 2 ltac:(lia)).
  destruct (Nat.ltb_spec (imod n t) ((n - 1) / 2 + 1)).
  - rewrite Ei, Z.mod_mod by lia. split; [reflexivity|]. rewrite <- Ei. lia.
  - split; [|lia]. rewrite Ei. replace (t mod Z.of_nat n - Z.of_nat n)%Z with (t mod Z.of_nat n + (-1) * Z.of_nat n)%Z by lia.
    rewrite Z.mod_add by lia. apply Z.mod_mod. lia.
Qed.
Lemma refine_zero fit d f : fits fit 3 (centred 3) f -> f 0%nat = f 2%nat -> f 0%nat < f 1%nat ->
  exists val, refine_max_position_1d fit d 3 None f = inr (0, val).
Proof.
  intros F E H. assert (M : mid_max f) by (unfold mid_max; split; [lra|split; [lra|]]; intros [? ?]; lra).
  unfold refine_max_position_1d. rewrite (fit3_unique _ _ F). unfold refine_with. rewrite vertex_interp by lra.
  replace (vertex3 f) with 0 by (unfold vertex3; rewrite E; field; lra). rewrite around_0. rewrite rmin_centred, rmax_centred by lia.
  replace (- (INR 3 - 1) / 2) with (-1) by (simpl; lra). replace ((INR 3 - 1) / 2) with 1 by (simpl; lra).
  destruct (Rlt_dec (-1) 0); [|lra]. destruct (Rlt_dec 0 1); [|lra]. eexists. reflexivity.
Qed.
Lemma refine_axes_zero fit dec so s cc pk : forall axes,
  (forall a, In a axes -> exists val, refine_max_position_1d fit dec 3 None (peak_line so cc pk a) = inr (0, val)) ->
  refine_axes fit dec so s cc pk axes = inr (map (fun a => IZR (fftfreq (nth a s 0%nat) (nth a pk 0%nat))) axes).
Proof.
  induction axes as [|a r IH]; intros H; [reflexivity|]. cbn [refine_axes map].
  destruct (H a (or_introl eq_refl)) as [val E]. rewrite (IH (fun b Hb => H b (or_intror Hb))). destruct (Nat.eqb dec 0); [reflexivity|].
  rewrite E, Rplus_0_r. reflexivity.
Qed.
Lemma signed_all_seq s t : pos s -> length t = length s ->
  signed_all s t (map (fun a => fftfreq (nth a s 0%nat) (nth a (tor s t) 0%nat)) (seq 0 (length s))).
Proof.
  revert t. induction s as [|n s IH]; intros [|a t] P L; simpl in L; try lia; [exact I|]. inversion P; subst.
  cbn [length seq map tor nth signed_all]. split; [now apply fftfreq_signed|]. rewrite <- seq_shift, map_map. apply IH; [assumption|lia].
Qed.

(** * C75.  For every shape, every displacement and every image without translational symmetry, with or without normalisation of
    the spectrum, with the complex transform or (last axis even) the real one: exactly the displacement comes back. *)
Theorem C75_finds_shift : forall fit use_rfft nrm eps dec s' n p d t, let s := s' ++ [n] in
  Forall (fun m => (2 <= m)%nat) s -> rfft_ok use_rfft n -> 0 < eps -> length t = length s ->
  (forall f, fits fit 3 (centred 3) f) -> moved s t p d -> aperiodic s p ->
  exists z, fit_shifts_xc fit use_rfft nrm eps dec s' n d p = inr (map IZR z) /\ signed_all s t z.
Proof.
  intros fit use_rfft nrm eps dec s' n p d t s H2 R He L F M A.
  assert (P : pos s) by (eapply Forall_impl; [|exact H2]; cbv beta; intros; lia).
  assert (So : xc_out use_rfft s' n = s).
  { unfold xc_out. destruct use_rfft; [|reflexivity]. destruct (R eq_refl) as (m & -> & Hm). unfold s.
    assert (Ed : (2 * m / 2 = m)%nat) by (rewrite Nat.mul_comm; apply Nat.div_mul; lia). rewrite Ed. now replace (2 * (m + 1 - 1))%nat with (2 * m)%nat by lia. }
  set (wt := weights use_rfft nrm eps s' n d p). assert (W : forall k, 0 < wt k) by (intros; now apply weight_pos).
  set (cc := xcorr use_rfft nrm eps s' n d p). set (G := spec_g s wt p).
  assert (CC : forall v, length v = length s -> cc (tor s v) = ccz s G (zadd v (map Z.opp t))) by (intros v Lv; apply (xcorr_moved use_rfft nrm eps s' n t p d v P L M R Lv)).
  assert (G0 : forall k, 0 <= G k) by (intros k; apply Rmult_le_pos; [left; apply W|apply cabs2_nonneg]).
  assert (I0 : inb s (tor s t)) by (now apply tor_inb).
  assert (C0 : cc (tor s t) = ccz s G (repeat 0%Z (length s))) by (rewrite CC, zadd_opp, L by exact L; reflexivity).
  (* strict peak *)
  assert (PK : forall v, length v = length s -> tor s (zadd v (map Z.opp t)) <> repeat 0%nat (length s) -> cc (tor s v) < cc (tor s t)).
  { intros v Lv Hne. rewrite CC, C0 by exact Lv. assert (Lu : length (zadd v (map Z.opp t)) = length s) by (rewrite zadd_length; rewrite ?map_length; lia).
    destruct (ccz_le s G (zadd v (map Z.opp t)) P G0 Lu) as [Q _]. destruct Q as [Q|Q]; [exact Q|]. exfalso. apply Hne. apply A; [now apply tor_inb|].
    apply periodic_tor; [exact P|exact Lu|]. apply (peak_period s wt p _ P W Lu Q). }
  assert (AM : argmax s cc = tor s t).
  { apply argmax_unique; [exact I0|]. intros l Hl Hne. rewrite <- (tor_zl s l Hl). apply PK; [rewrite zl_length; now apply inb_length|].
    intros E. apply Hne. assert (E2 : tor s (zadd (zl (tor s (zadd (zl l) (map Z.opp t)))) t) = tor s (zadd (zl l) (zadd (map Z.opp t) t))).
    { rewrite tor_add_tor; [|exact P| |exact L]; [|rewrite zadd_length; rewrite ?map_length, ?zl_length, (inb_length _ _ Hl); lia].
      f_equal. clear. revert t. generalize (zl l). induction l0 as [|a l0 IH]; intros [|b t]; simpl; try reflexivity. rewrite IH. f_equal. lia. }
    rewrite E in E2. rewrite (zadd_comm (map Z.opp t)), zadd_opp, L in E2.
    rewrite zadd_0_r in E2 by (rewrite zl_length; now apply inb_length). rewrite tor_zl in E2 by exact Hl. rewrite <- E2.
    f_equal. rewrite zl_repeat0. rewrite zadd_comm. now rewrite zadd_0_r. }
  exists (map (fun a => fftfreq (nth a s 0%nat) (nth a (tor s t) 0%nat)) (seq 0 (length s))). split; [|now apply signed_all_seq].
  unfold fit_shifts_xc. rewrite So. fold cc. rewrite AM. fold s. destruct (Nat.eqb_spec (size s) 0) as [Z0|_]; [pose proof (size_pos_of s P); lia|].
  rewrite refine_axes_zero; [now rewrite map_map|]. intros a Ha. apply in_seq in Ha.
  assert (H2a : (2 <= nth a s 0)%nat) by (eapply Forall_forall in H2; [exact H2|]; apply nth_In; lia).
  assert (PL : forall z, cc (set_nth a (imod (nth a s 0%nat) (Z.of_nat (nth a (tor s t) 0%nat) + z)) (tor s t)) = ccz s G (eZ (length s) a z)).
  { intros z. rewrite tor_step by (assumption || lia). rewrite CC by (rewrite zadd_length; rewrite ?eZ_length; lia).
    unfold ccz. f_equal. apply bsum_ext. intros k Hk. f_equal. rewrite !chi_add by (rewrite ?zadd_length, ?map_length; rewrite ?eZ_length; lia).
    rewrite chi_opp. transitivity (fst (chi s k t *c conj (chi s k t) *c chi s k (eZ (length s) a z))); [f_equal; ring|].
    rewrite chi_inv. f_equal. ring. }
  assert (PL0 : peak_line s cc (tor s t) a 1%nat = cc (tor s t)).
  { unfold peak_line. change (Z.of_nat 1 - 1)%Z with 0%Z. rewrite Z.add_0_r. rewrite imod_small by (apply inb_nth; [exact I0|lia]). now rewrite set_nth_nth. }
  apply refine_zero; [apply F| |].
  - unfold peak_line. rewrite !PL. change (Z.of_nat 0 - 1)%Z with (- (1))%Z. change (Z.of_nat 2 - 1)%Z with 1%Z.
    rewrite <- eZ_opp. unfold ccz. f_equal. apply bsum_ext. intros k Hk. rewrite chi_opp. reflexivity.
  - rewrite PL0. unfold peak_line. change (Z.of_nat 0 - 1)%Z with (- (1))%Z. rewrite PL. rewrite <- eZ_opp.
    replace (ccz s G (map Z.opp (eZ (length s) a 1%Z))) with (ccz s G (eZ (length s) a 1%Z)) by (unfold ccz; f_equal; apply bsum_ext; intros k Hk; now rewrite chi_opp).
    rewrite <- (PL 1%Z), tor_step by (assumption || lia). apply PK; [rewrite zadd_length; rewrite ?eZ_length; lia|].
    replace (zadd (zadd t (eZ (length s) a 1%Z)) (map Z.opp t)) with (eZ (length s) a 1%Z); [apply tor_eZ_nonzero; (assumption || lia)|].
    pose proof (eZ_length (length s) a 1) as Le. rewrite <- L in Le at 2. revert Le. generalize (eZ (length s) a 1%Z). clear. 
    induction t as [|b t IH]; intros [|c u] Lu; simpl in *; try lia; [reflexivity|]. rewrite <- IH by lia. f_equal. lia.
Qed.
