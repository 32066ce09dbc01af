(** C204: vertical pre-alignment. *)
From Coq Require Import Reals Lra Lia List ZArith Bool Permutation.
Import ListNotations.
From Verif Require Import OperatorsLayoutProps.
From Verif Require Import Sums Rounding PyErr Arrays Reindex ParamTuningModel ParamTuningProps ProcPreModel ProcPreProps Fourier FourierBox AlignFitModel AlignFitProps AlignXcProps AlignShiftProps AlignShiftsModel AlignShiftsProps AlignPreModel.
Open Scope R_scope.

(** ** Two zero-padded copies of one finite feature *)
Section Copies.
  Context (k : Z -> R) (lo hi : Z).
  Hypothesis Kout : forall z, (z < lo \/ hi <= z)%Z -> k z = 0.
  Hypothesis Kin : exists z, k z <> 0.

  Lemma last_nonzero : exists z1, k z1 <> 0 /\ forall z, (z1 < z)%Z -> k z = 0.
  Proof.
    assert (H : forall n, (exists z1, k z1 <> 0 /\ forall z, (z1 < z)%Z -> k z = 0) \/ forall z, (hi - Z.of_nat n <= z)%Z -> k z = 0).
    { induction n as [|n [IH|IH]]; [right; intros z Hz; apply Kout; lia|left; exact IH|].
      destruct (Req_EM_T (k (hi - Z.of_nat (S n))) 0) as [E|E].
      - right. intros z Hz. destruct (Z.eq_dec z (hi - Z.of_nat (S n))) as [->|]; [exact E|apply IH; lia].
      - left. exists (hi - Z.of_nat (S n))%Z. split; [exact E|]. intros z Hz. apply IH. lia. }
    destruct (H (Z.to_nat (hi - lo))) as [G|G]; [exact G|]. exfalso. destruct Kin as [z Hz]. apply Hz.
    destruct (Z_lt_ge_dec z lo); [apply Kout; lia|apply G; lia].
  Qed.

  Context (L H c : nat) (a b : Z) (d p : vec).
  Hypothesis HL : (2 * c <= L + 1 /\ 2 <= L /\ H + c <= L)%nat.
  Hypothesis Ha : (a <= lo /\ hi <= a + Z.of_nat c)%Z.
  Hypothesis Hb : (b <= lo /\ hi <= b + Z.of_nat c)%Z.
  Hypothesis Hd : forall i, (i < L)%nat -> d i = k (Z.of_nat i - Z.of_nat H + a).
  Hypothesis Hp : forall i, (i < L)%nat -> p i = k (Z.of_nat i - Z.of_nat H + b).

  Lemma inside_window z : k z <> 0 -> (lo <= z < hi)%Z.
  Proof. intros Hz. destruct (Z_lt_ge_dec z lo) as [l|l]; [exfalso; apply Hz, Kout; lia|]. destruct (Z_lt_ge_dec z hi); [lia|exfalso; apply Hz, Kout; lia]. Qed.

  Lemma copies_moved i : (i < L)%nat -> d i = p (imod L (Z.of_nat i - (b - a))).
  Proof.
    intros Hi. pose proof (imod_lt L (Z.of_nat i - (b - a)) ltac:(lia)) as Hj. pose proof (imod_of L (Z.of_nat i - (b - a)) ltac:(lia)) as Ej.
    set (j := imod L (Z.of_nat i - (b - a))) in *. rewrite Hd, Hp by assumption.
    destruct (Z.eq_dec (Z.of_nat j) (Z.of_nat i - (b - a))) as [E|E]; [f_equal; lia|].
    transitivity 0; [|symmetry].
    - destruct (Req_EM_T (k (Z.of_nat i - Z.of_nat H + a)) 0) as [Q|Q]; [exact Q|]. exfalso. apply E. apply inside_window in Q. rewrite Ej. apply Z.mod_small. lia.
    - destruct (Req_EM_T (k (Z.of_nat j - Z.of_nat H + b)) 0) as [Q|Q]; [exact Q|]. exfalso. apply E. apply inside_window in Q.
      assert (Hm : ((Z.of_nat j + (b - a)) mod Z.of_nat L = Z.of_nat i mod Z.of_nat L)%Z).
      { rewrite Ej. rewrite Z.add_mod_idemp_l by lia. f_equal. lia. }
      rewrite !Z.mod_small in Hm by lia. lia.
  Qed.

  Lemma copies_aperiodic : no_period L p.
  Proof.
    intros l Hl Hper. destruct (inb1 _ _ Hl) as (u & -> & Hu). destruct u as [|u]; [reflexivity|]. exfalso. cbn [length repeat] in *.
    assert (P : forall i, (i < L)%nat -> p (imod L (Z.of_nat i + Z.of_nat (S u))) = p i).
    { intros i Hi. assert (Ii : inb [L] [i]) by (repeat constructor; exact Hi). pose proof (Hper [i] Ii) as E. unfold tadd in E. cbn [zl map zadd tor nth] in E. exact E. }
    destruct last_nonzero as (z1 & Z1 & Zmax). pose proof (inside_window z1 Z1) as Wz.
    set (l1 := Z.to_nat (z1 + Z.of_nat H - b)). assert (El1 : Z.of_nat l1 = (z1 + Z.of_nat H - b)%Z) by (unfold l1; rewrite Z2Nat.id; lia).
    assert (Pl1 : p l1 <> 0). { rewrite Hp by lia. replace (Z.of_nat l1 - Z.of_nat H + b)%Z with z1 by lia. exact Z1. }
    (* forwards *)
    assert (F : (L + H <= l1 + S u)%nat).
    { pose proof (P l1 ltac:(lia)) as E. destruct (Nat.lt_ge_cases (l1 + S u) L) as [G|G].
      - exfalso. apply Pl1. rewrite <- E. rewrite <- Nat2Z.inj_add, imod_small by lia. rewrite Hp by lia. apply Zmax. lia.
      - assert (Ei : imod L (Z.of_nat l1 + Z.of_nat (S u)) = (l1 + S u - L)%nat).
        { apply imod_exact; [lia|]. replace (Z.of_nat l1 + Z.of_nat (S u))%Z with (Z.of_nat (l1 + S u - L) + 1 * Z.of_nat L)%Z by lia. rewrite Z.mod_add by lia. apply Z.mod_small. lia. }
        rewrite Ei in E. rewrite Hp in E by lia. rewrite <- E in Pl1. apply inside_window in Pl1. lia. }
    (* backwards *)
    destruct (Nat.lt_ge_cases l1 (S u)) as [G|G].
    - pose proof (P (l1 + L - S u)%nat ltac:(lia)) as E.
      assert (Ei : imod L (Z.of_nat (l1 + L - S u) + Z.of_nat (S u)) = l1).
      { apply imod_exact; [lia|]. replace (Z.of_nat (l1 + L - S u) + Z.of_nat (S u))%Z with (Z.of_nat l1 + 1 * Z.of_nat L)%Z by lia. rewrite Z.mod_add by lia. apply Z.mod_small. lia. }
      rewrite Ei in E. apply Pl1. rewrite E. rewrite Hp by lia. apply Zmax. lia.
    - pose proof (P (l1 - S u)%nat ltac:(lia)) as E.
      assert (Ei : imod L (Z.of_nat (l1 - S u) + Z.of_nat (S u)) = l1).
      { apply imod_exact; [lia|]. rewrite Z.mod_small by lia. lia. }
      rewrite Ei in E. rewrite E in Pl1. rewrite Hp in Pl1 by lia. apply inside_window in Pl1. lia.
  Qed.

  Lemma copies_found fit use_rfft nrm eps dec : rfft_ok use_rfft L -> 0 < eps -> (1 <= dec)%nat -> (forall f, fits fit 3 (centred 3) f) ->
    pre_find fit use_rfft nrm eps dec L d p = inr (IZR (b - a)).
  Proof.
    intros Rf He Hdec F.
    set (P := fun l : list nat => p (nth 0 l 0%nat)). set (D := fun l : list nat => d (nth 0 l 0%nat)).
    destruct (C75_finds_shift fit use_rfft nrm eps dec [] L P D [(b - a)%Z]) as (z & E & Hz).
    - repeat constructor. lia.
    - exact Rf.
    - exact He.
    - reflexivity.
    - exact F.
    - intros l Hl. cbn [app] in *. destruct (inb1 _ _ Hl) as (i & -> & Hi). unfold D, P, tadd. cbn [zl map zadd tor nth]. rewrite copies_moved by exact Hi. do 2 f_equal.
    - cbn [app]. exact copies_aperiodic.
    - destruct z as [|z0 [|]]; cbn [app signed_all] in Hz; try tauto. destruct Hz as [[Hz1 Hz2] _].
      assert (So : xc_out use_rfft [] L = [L]).
      { unfold xc_out. destruct use_rfft; [|reflexivity]. destruct (Rf eq_refl) as (m & -> & Hm). rewrite (Nat.mul_comm 2 m), Nat.div_mul by lia.
        cbn [app]. f_equal. lia. }
      unfold fit_shifts_xc in E. rewrite So in E. cbn [app size fold_right length seq refine_axes map] in E.
      unfold pre_find. rewrite So. fold D P. cbn [nth app] in *.
      destruct (Nat.eqb_spec (L * 1) 0) as [Z0|_]; [lia|]. destruct (Nat.eqb_spec dec 0) as [Z0|_]; [lia|].
      destruct (refine_max_position_1d _ _ _ _ _) as [e|[x y]]; [discriminate|]. injection E as E. f_equal. rewrite Rplus_comm, E.
      f_equal.
      pose proof last_nonzero as (z1 & Z1 & _). apply inside_window in Z1.
      assert (Hw : (- Z.of_nat L < 2 * (b - a) < Z.of_nat L)%Z) by lia.
      assert (Q : ((z0 - (b - a)) mod Z.of_nat L = 0)%Z). { rewrite Zminus_mod, Hz1, Z.sub_diag. reflexivity. }
      apply Z.mod_divide in Q; [|lia]. destruct Q as [q Hq]. assert (q = 0)%Z by nia. subst q. lia.
  Qed.
End Copies.

(** ** Specification *)
(** the profiles show one feature g, displaced by t w rows in projection w and with its own gain and offset; everything that varies
    in g lies between rows lo and hi, which every projection sees *)
Definition displaced_profiles (V N : nat) (prof : nat -> nat -> R) (g : Z -> R) (lo hi : Z) (t : nat -> Z) : Prop :=
  (exists gain offset : nat -> R, forall v w, (v < V)%nat -> (w < N)%nat -> 0 < gain w /\ prof v w = gain w * g (Z.of_nat v + t w)%Z + offset w) /\
  (forall z, (z <= lo)%Z -> g z = g lo) /\ (forall z, (hi <= z)%Z -> g z = g hi) /\ (exists z, g z <> g lo) /\ (lo <= hi)%Z /\
  forall w, (w < N)%nat -> (t w <= lo /\ hi <= t w + Z.of_nat V - 1)%Z.

Section Scaled.
  Context (V N : nat) (prof : nat -> nat -> R) (g : Z -> R) (lo hi : Z) (t : nat -> Z).
  Hypothesis HV : (2 <= V)%nat.
  Hypothesis HD : displaced_profiles V N prof g lo hi t.
  Let window (w v : nat) : R := g (Z.of_nat v + t w)%Z.

  Lemma seen w z : (w < N)%nat -> exists v, (v < V)%nat /\ g z = window w v.
  Proof.
    intros Hw. destruct HD as (_ & Hlo & Hhi & _ & Hle & Hv). specialize (Hv w Hw). unfold window.
    destruct (Z_lt_ge_dec z lo) as [l|l]; [|destruct (Z_lt_ge_dec hi z) as [l'|l']].
    - exists (Z.to_nat (lo - t w)). split; [lia|]. rewrite Z2Nat.id by lia. rewrite Hlo by lia. f_equal. lia.
    - exists (Z.to_nat (hi - t w)). split; [lia|]. rewrite Z2Nat.id by lia. rewrite Hhi by lia. f_equal. lia.
    - exists (Z.to_nat (z - t w)). split; [lia|]. rewrite Z2Nat.id by lia. f_equal. lia.
  Qed.
  Let m := rmin V (window 0).
  Let M := rmax V (window 0).
  Lemma min_all w : (w < N)%nat -> rmin V (window w) = m.
  Proof.
    intros Hw. unfold m. apply Rle_antisym.
    - destruct (rmin_attained V (window 0) ltac:(lia)) as (v & Hv & ->). destruct (seen w (Z.of_nat v + t 0%nat)%Z Hw) as (v' & Hv' & E). unfold window at 2. rewrite E. apply rmin_le, Hv'.
    - destruct (rmin_attained V (window w) ltac:(lia)) as (v & Hv & ->). destruct (seen 0 (Z.of_nat v + t w)%Z ltac:(lia)) as (v' & Hv' & E). unfold window at 2. rewrite E. apply rmin_le, Hv'.
  Qed.
  Lemma max_all w : (w < N)%nat -> rmax V (window w) = M.
  Proof.
    intros Hw. unfold M. apply Rle_antisym.
    - destruct (rmax_attained V (window w) ltac:(lia)) as (v & Hv & ->). destruct (seen 0 (Z.of_nat v + t w)%Z ltac:(lia)) as (v' & Hv' & E). unfold window at 1. rewrite E. apply rmax_ge, Hv'.
    - destruct (rmax_attained V (window 0) ltac:(lia)) as (v & Hv & ->). destruct (seen w (Z.of_nat v + t 0%nat)%Z Hw) as (v' & Hv' & E). unfold window at 1. rewrite E. apply rmax_ge, Hv'.
  Qed.
  Lemma below_all z : (0 < N)%nat -> m <= g z <= M.
  Proof. intros Hn. destruct (seen 0 z Hn) as (v & Hv & ->). split; [apply rmin_le, Hv|apply rmax_ge, Hv]. Qed.
  Lemma spread_pos : (0 < N)%nat -> m < M.
  Proof.
    intros Hn. destruct HD as (_ & _ & _ & (z & Hz) & _). pose proof (below_all z Hn). pose proof (below_all lo Hn).
    destruct (Req_EM_T m M) as [E|E]; [exfalso; apply Hz; lra|lra].
  Qed.
  Definition scaled_feature (z : Z) : R := (g z - m) / (M - m).
  Lemma rmin_affine n f gn of : (0 < n)%nat -> 0 < gn -> rmin n (fun v => gn * f v + of) = gn * rmin n f + of.
  Proof.
    intros Hn Hg. apply Rle_antisym.
    - destruct (rmin_attained n f Hn) as (v & Hv & ->). apply (rmin_le n (fun v => gn * f v + of)), Hv.
    - destruct (rmin_attained n (fun v => gn * f v + of) Hn) as (v & Hv & ->). pose proof (rmin_le n f v Hv). nra.
  Qed.
  Lemma rmax_affine n f gn of : (0 < n)%nat -> 0 < gn -> rmax n (fun v => gn * f v + of) = gn * rmax n f + of.
  Proof.
    intros Hn Hg. apply Rle_antisym.
    - destruct (rmax_attained n (fun v => gn * f v + of) Hn) as (v & Hv & ->). pose proof (rmax_ge n f v Hv). nra.
    - destruct (rmax_attained n f Hn) as (v & Hv & ->). apply (rmax_ge n (fun v => gn * f v + of)), Hv.
  Qed.
  Lemma rmin_ext' n f h : (forall i, (i < n)%nat -> f i = h i) -> (0 < n)%nat -> rmin n f = rmin n h.
  Proof.
    intros E Hn. apply Rle_antisym.
    - destruct (rmin_attained n h Hn) as (v & Hv & ->). rewrite <- E by exact Hv. apply rmin_le, Hv.
    - destruct (rmin_attained n f Hn) as (v & Hv & ->). rewrite E by exact Hv. apply rmin_le, Hv.
  Qed.
  Lemma rmax_ext' n f h : (forall i, (i < n)%nat -> f i = h i) -> (0 < n)%nat -> rmax n f = rmax n h.
  Proof.
    intros E Hn. apply Rle_antisym.
    - destruct (rmax_attained n f Hn) as (v & Hv & ->). rewrite E by exact Hv. apply rmax_ge, Hv.
    - destruct (rmax_attained n h Hn) as (v & Hv & ->). rewrite <- E by exact Hv. apply rmax_ge, Hv.
  Qed.
  Lemma scaled v w : (v < V)%nat -> (w < N)%nat -> unit_scaled V prof v w = scaled_feature (Z.of_nat v + t w).
  Proof.
    intros Hv Hw. destruct HD as ((gain & offset & HG) & _). destruct (HG v w Hv Hw) as [G E]. unfold unit_scaled.
    rewrite (rmin_ext' V (fun v => prof v w) (fun v => gain w * window w v + offset w)) by (lia || intros i Hi; apply HG; assumption).
    rewrite (rmax_ext' V (fun v => prof v w) (fun v => gain w * window w v + offset w)) by (lia || intros i Hi; apply HG; assumption).
    rewrite rmin_affine, rmax_affine, min_all, max_all by (assumption || lia). rewrite E. unfold scaled_feature.
    pose proof (spread_pos ltac:(lia)). assert (gain w * (M - m) <> 0) by nra. field. repeat split; nra.
  Qed.

  Context (fit : fitter) (use_rfft : bool) (nrm : xnorm) (eps : R) (dec : nat).
  Hypothesis He : 0 < eps.
  Hypothesis Hdec : (1 <= dec)%nat.
  Hypothesis HF : forall f, fits fit 3 (centred 3) f.
  Let line (dv : bool) (w : nat) := pre_padded dv V (fun v => unit_scaled V prof v w).
  Lemma half_bounds : (V <= 2 * (V / 2) + 1 /\ 2 * (V / 2) <= V)%nat.
  Proof. pose proof (Nat.div_mod V 2 ltac:(lia)). pose proof (Nat.mod_upper_bound V 2 ltac:(lia)). lia. Qed.

  Lemma found_derivative w w' : (w < N)%nat -> (w' < N)%nat -> rfft_ok use_rfft (pre_length true V) ->
    pre_find fit use_rfft nrm eps dec (pre_length true V) (line true w) (line true w') = inr (IZR (t w' - t w)).
  Proof.
    intros Hw Hw' Rf. pose proof half_bounds as HB. pose proof (spread_pos ltac:(lia)) as SP.
    destruct HD as (_ & Hlo & Hhi & (z0 & Hz0) & Hle & Hv). pose proof (Hv w Hw) as Va. pose proof (Hv w' Hw') as Vb.
    set (k := fun z : Z => scaled_feature (z + 1) - scaled_feature z).
    assert (Kout : forall z, (z < lo \/ hi <= z)%Z -> k z = 0).
    { intros z [Hz|Hz]; unfold k, scaled_feature.
      - rewrite (Hlo z), (Hlo (z + 1)%Z) by lia. ring.
      - rewrite (Hhi z), (Hhi (z + 1)%Z) by lia. ring. }
    assert (L1 : pre_length true V = (V - 1 + 2 * (V / 2))%nat) by reflexivity.
    assert (HLn : forall w0, (w0 < N)%nat -> forall i, (i < pre_length true V)%nat -> line true w0 i = k (Z.of_nat i - Z.of_nat (V / 2) + t w0)%Z).
    { intros w0 Hw0 i Hi. pose proof (Hv w0 Hw0) as V0. unfold line, pre_padded.
      destruct (Nat.leb_spec (V / 2) i) as [A|A]; cbn [andb].
      - destruct (Nat.ltb_spec i (V / 2 + (V - 1))) as [B|B].
        + rewrite !scaled by lia. unfold k. f_equal; f_equal; lia.
        + symmetry. apply Kout. lia.
      - symmetry. apply Kout. lia. }
    apply (copies_found k lo hi Kout) with (H := (V / 2)%nat) (c := (V - 1)%nat); try assumption; try lia.
    - destruct (Req_EM_T (scaled_feature z0) (scaled_feature lo)) as [E|E].
      { exfalso. apply Hz0. unfold scaled_feature in E. apply Rmult_eq_reg_r in E; [lra|]. apply Rinv_neq_0_compat. lra. }
      assert (Hn : forall n, (exists z, k z <> 0) \/ scaled_feature (lo + Z.of_nat n) = scaled_feature lo).
      { induction n as [|n [IH|IH]]; [right; f_equal; lia|left; exact IH|].
        destruct (Req_EM_T (k (lo + Z.of_nat n)%Z) 0) as [Q|Q]; [|left; eexists; exact Q]. right. unfold k in Q. rewrite IH in Q.
        replace (lo + Z.of_nat (S n))%Z with (lo + Z.of_nat n + 1)%Z by lia. lra. }
      destruct (Z_lt_ge_dec z0 lo) as [l|l]; [exfalso; apply Hz0, Hlo; lia|].
      destruct (Hn (Z.to_nat (z0 - lo))) as [Q|Q]; [exact Q|]. exfalso. apply E. rewrite <- Q. f_equal. lia.
    - apply HLn, Hw.
    - apply HLn, Hw'.
  Qed.
  Lemma found_plain w w' : (w < N)%nat -> (w' < N)%nat -> rfft_ok use_rfft (pre_length false V) ->
    (forall z, g lo <= g z) -> g hi = g lo ->
    pre_find fit use_rfft nrm eps dec (pre_length false V) (line false w) (line false w') = inr (IZR (t w' - t w)).
  Proof.
    intros Hw Hw' Rf Hmin Hend. pose proof half_bounds as HB. pose proof (spread_pos ltac:(lia)) as SP.
    assert (Em : g lo = m).
    { apply Rle_antisym; [|apply below_all; lia]. unfold m. destruct (rmin_attained V (window 0) ltac:(lia)) as (v & _ & ->). apply Hmin. }
    destruct HD as (_ & Hlo & Hhi & (z0 & Hz0) & Hle & Hv). pose proof (Hv w Hw) as Va. pose proof (Hv w' Hw') as Vb.
    set (k := scaled_feature).
    assert (Kout : forall z, (z < lo + 1 \/ hi <= z)%Z -> k z = 0).
    { intros z [Hz|Hz]; unfold k, scaled_feature.
      - rewrite (Hlo z), Em by lia. unfold Rdiv. ring.
      - rewrite (Hhi z), Hend, Em by lia. unfold Rdiv. ring. }
    assert (L1 : pre_length false V = (V + 2 * (V / 2))%nat) by reflexivity.
    assert (HLn : forall w0, (w0 < N)%nat -> forall i, (i < pre_length false V)%nat -> line false w0 i = k (Z.of_nat i - Z.of_nat (V / 2) + t w0)%Z).
    { intros w0 Hw0 i Hi. pose proof (Hv w0 Hw0) as V0. unfold line, pre_padded.
      destruct (Nat.ltb_spec i (V / 2)) as [A|A].
      - rewrite scaled by lia. fold k. rewrite (Kout (Z.of_nat 0 + t w0)%Z) by lia. rewrite (Kout (Z.of_nat i - _ + _)%Z) by lia. ring.
      - destruct (Nat.ltb_spec i (V / 2 + V)) as [B|B].
        + rewrite scaled by lia. fold k. f_equal. lia.
        + rewrite scaled by lia. fold k. rewrite (Kout (Z.of_nat (V - 1) + t w0)%Z) by lia. rewrite (Kout (Z.of_nat i - _ + _)%Z) by lia. ring. }
    apply (copies_found k (lo + 1) hi Kout) with (H := (V / 2)%nat) (c := V); try assumption; try lia.
    - exists z0. unfold k, scaled_feature. intros E. apply Hz0. apply Rmult_integral in E. destruct E as [E|E]; [lra|]. exfalso. revert E. apply Rinv_neq_0_compat. lra.
    - apply HLn, Hw.
    - apply HLn, Hw'.
  Qed.
End Scaled.

(** ** The returned shifts *)
Lemma all_results_ok (f : nat -> R) : forall (l : list nat) (rs : nat -> py_err + R), (forall w, In w l -> rs w = inr (f w)) -> all_results (map rs l) = inr (map f l).
Proof. induction l as [|w l IH]; intros rs H; [reflexivity|]. cbn [map all_results]. rewrite (H w) by (left; reflexivity). rewrite IH by (intros; apply H; right; assumption). reflexivity. Qed.
Lemma fold_seq (f : nat -> R) n : forall a, fold_right Rplus 0 (map f (seq a n)) = rsum n (fun i => f (a + i)%nat).
Proof.
  induction n as [|n IH]; intros a; [reflexivity|]. rewrite rsum_S_l. cbn [seq map fold_right]. rewrite IH. rewrite Nat.add_0_r. f_equal. apply rsum_ext. intros i _. f_equal. lia.
Qed.
(** the right answer for displacements t: what is left after removing their mean, to the requested decimals *)
Definition right_shifts (dec N : nat) (t : nat -> Z) : list R :=
  map (fun w => np_around dec (IZR (t w) - rsum N (fun w => IZR (t w)) / INR N)) (seq 0 N).
Lemma fit_v_answer fit dv use_rfft (normalize : bool) eps dec V N U maxs data mask t : (2 <= V)%nat -> (0 < N)%nat ->
  (forall w, (w < N)%nat -> pre_find fit use_rfft (if normalize then NormMax else NoNorm) eps dec (pre_length dv V)
     (pre_padded dv V (fun v => unit_scaled V (profile U data mask) v (N / 2))) (pre_padded dv V (fun v => unit_scaled V (profile U data mask) v w)) = inr (IZR (t w - t (N / 2)%nat))) ->
  (forall w, (w < N)%nat -> Rabs (IZR (t w - t (N / 2)%nat)) <= maxs) ->
  fit_v fit dv use_rfft normalize eps dec V N U maxs data mask = inr (right_shifts dec N t).
Proof.
  intros HV HN HP HM. unfold fit_v. destruct (Nat.leb_spec V 1); [lia|].
  rewrite (all_results_ok (fun w => IZR (t w - t (N / 2)%nat))).
  2:{ intros w Hw. apply in_seq in Hw. apply HP. lia. }
  assert (EF : map (filter1 maxs) (map (fun w => IZR (t w - t (N / 2)%nat)) (seq 0 N)) = map (fun w => IZR (t w - t (N / 2)%nat)) (seq 0 N)).
  { rewrite map_map. apply map_ext_in. intros w Hw. apply in_seq in Hw. unfold filter1. destruct (Rlt_dec _ _) as [Q|Q]; [|reflexivity].
    specialize (HM w ltac:(lia)). lra. }
  cbv zeta. rewrite EF, map_map. f_equal. unfold right_shifts. apply map_ext. intros w. f_equal. rewrite fold_seq. cbn [Nat.add].
  rewrite (rsum_ext N _ (fun i => IZR (t i) + - IZR (t (N / 2)%nat))) by (intros; rewrite minus_IZR; ring).
  rewrite rsum_plus, rsum_const, minus_IZR. field. apply not_0_INR. lia.
Qed.

(** With the derivative (the default): whenever the inverse transform gives back as many samples as went in - complex transform, or
    an odd number of rows - the displacements are found exactly, whatever gain and offset the projections have *)
Theorem C204_derivative : forall fit use_rfft normalize eps dec V N U maxs data mask g lo hi t,
  (2 <= V)%nat -> (0 < N)%nat -> 0 < eps -> (1 <= dec)%nat -> (forall f, fits fit 3 (centred 3) f) ->
  displaced_profiles V N (profile U data mask) g lo hi t ->
  (forall w, (w < N)%nat -> Rabs (IZR (t w - t (N / 2)%nat)) <= maxs) ->
  (use_rfft = true -> Nat.Odd V) ->
  fit_v fit true use_rfft normalize eps dec V N U maxs data mask = inr (right_shifts dec N t).
Proof.
  intros fit use_rfft normalize eps dec V N U maxs data mask g lo hi t HV HN He Hdec HF HD HM HO.
  apply fit_v_answer; try assumption. intros w Hw. apply (found_derivative V N _ g lo hi t); try assumption; [apply Nat.div_lt_upper_bound; lia|].
  intros E. destruct (HO E) as [m ->]. unfold pre_length. exists (m + (2 * m + 1) / 2)%nat. split; [lia|].
  assert ((2 * m + 1) / 2 = m)%nat by (rewrite Nat.add_comm, Nat.mul_comm, Nat.div_add by lia; reflexivity). lia.
Qed.
(** Without the derivative: the same for an even number of rows (or the complex transform), for a feature on the lowest level *)
Theorem C204_no_derivative : forall fit use_rfft normalize eps dec V N U maxs data mask g lo hi t,
  (2 <= V)%nat -> (0 < N)%nat -> 0 < eps -> (1 <= dec)%nat -> (forall f, fits fit 3 (centred 3) f) ->
  displaced_profiles V N (profile U data mask) g lo hi t -> (forall z, g lo <= g z) -> g hi = g lo ->
  (forall w, (w < N)%nat -> Rabs (IZR (t w - t (N / 2)%nat)) <= maxs) ->
  (use_rfft = true -> Nat.Even V) ->
  fit_v fit false use_rfft normalize eps dec V N U maxs data mask = inr (right_shifts dec N t).
Proof.
  intros fit use_rfft normalize eps dec V N U maxs data mask g lo hi t HV HN He Hdec HF HD Hmin Hend HM HO.
  apply fit_v_answer; try assumption. intros w Hw. apply (found_plain V N _ g lo hi t); try assumption; [apply Nat.div_lt_upper_bound; lia|].
  intros E. destruct (HO E) as [m ->]. unfold pre_length. exists (m + (2 * m) / 2)%nat. split; [lia|].
  assert ((2 * m) / 2 = m)%nat by (rewrite Nat.mul_comm, Nat.div_mul by lia; reflexivity). lia.
Qed.
(** single rows are refused *)
Theorem C204_two_dimensional : forall fit dv rf nm eps dec N U maxs data mask, fit_v fit dv rf nm eps dec 1 N U maxs data mask = inl ValueError.
Proof. reflexivity. Qed.

(** ** The default settings, on an even number of rows *)
Section OddReal.
  Definition spike_at (q : nat) : arr := fun l => if Nat.eqb (nth 0 l 0%nat) q then 1 else 0.
  Lemma dft_spike_at q k : (q < 7)%nat -> dftN [7%nat] (fun l => RtoC (spike_at q l)) [k] = conj (w 7 (Z.of_nat k * Z.of_nat q)).
  Proof.
    intros Hq. unfold dftN, cbsum. cbn [bsum rsum]. unfold spike_at. cbn [nth zl map chi].
    do 7 (destruct q as [|q]; [cbn [Nat.eqb]; apply C_eq; unfold Cmul, conj, RtoC, C1; cbn [fst snd]; ring|]). lia.
  Qed.
  Definition theta (s : Z) (i : nat) : R := 2 * PI * (INR i / 6 - IZR s / 7).
  Definition height (s : Z) (i : nat) : R := 1 + 2 * cos (theta s i) + 2 * cos (2 * theta s i) + cos (3 * theta s i).
  Context (normalize : bool) (eps : R).
  Hypothesis He : 0 < eps.
  Lemma spikes_cc q r : (q < 7)%nat -> (r < 7)%nat -> exists c0, 0 < c0 /\ forall i,
    xcorr true (if normalize then NormMax else NoNorm) eps [] 7 (spike_at q) (spike_at r) [i] = c0 * height (Z.of_nat q - Z.of_nat r) i.
  Proof.
    intros Hq Hr. set (nrm := if normalize then NormMax else NoNorm).
    set (X := xc_spectrum [7%nat] (spike_at q) (spike_at r)).
    assert (HX : forall k, X [k] = cis (- (2 * PI * (INR k * IZR (Z.of_nat q - Z.of_nat r) / 7)))).
    { intros k. unfold X, xc_spectrum. rewrite !dft_spike_at by assumption. rewrite <- !w_neg, <- w_add. unfold w. f_equal.
      rewrite plus_IZR, !opp_IZR, !mult_IZR, minus_IZR, <- !INR_IZR_INZ. simpl (INR 7). field. }
    set (c1 := xc_weight nrm eps [4%nat] X [0%nat]).
    assert (W : forall k, xc_weight nrm eps [4%nat] X [k] = c1) by (intros; unfold c1, nrm; destruct normalize; reflexivity).
    assert (Hc1 : 0 < c1).
    { unfold c1, nrm. destruct normalize; cbn [xc_weight]; [|lra]. apply Rinv_0_lt_compat. eapply Rlt_le_trans; [exact He|apply Rmax_r]. }
    exists (/ 6 * c1). split; [apply Rmult_lt_0_compat; [lra|exact Hc1]|]. intros i. unfold xcorr, irfftnN. cbn [app]. fold X.
    change (7 / 2 + 1)%nat with 4%nat. unfold xc_bins. change (7 / 2 + 1)%nat with 4%nat. change (2 * (4 - 1))%nat with 6%nat.
    cbn [app size fold_right bsum rsum]. cbn [last hw Nat.eqb orb Nat.sub]. rewrite !W, !HX. cbn [zl map chi].
    assert (T : forall k, fst (RtoC c1 *c cis (- (2 * PI * (INR k * IZR (Z.of_nat q - Z.of_nat r) / 7))) *c (w 6 (Z.of_nat k * Z.of_nat i) *c C1)) = c1 * cos (INR k * theta (Z.of_nat q - Z.of_nat r) i)).
    { intros k. transitivity (c1 * fst (cis (- (2 * PI * (INR k * IZR (Z.of_nat q - Z.of_nat r) / 7))) *c w 6 (Z.of_nat k * Z.of_nat i))).
      { unfold Cmul, RtoC, C1. cbn [fst snd]. ring. }
      unfold w. rewrite <- cis_add. unfold cis. cbn [fst]. do 2 f_equal. unfold theta. rewrite mult_IZR, <- !INR_IZR_INZ. simpl (INR 6). field. }
    rewrite !T. unfold height. simpl INR. rewrite !Rmult_0_l, cos_0, !Rmult_1_l.
    replace ((1 + 1) * theta (Z.of_nat q - Z.of_nat r) i) with (2 * theta (Z.of_nat q - Z.of_nat r) i) by ring.
    replace ((1 + 1 + 1) * theta (Z.of_nat q - Z.of_nat r) i) with (3 * theta (Z.of_nat q - Z.of_nat r) i) by ring.
    field.
  Qed.
End OddReal.
Lemma sqrt3_bounds : 17 / 10 < sqrt 3 < 18 / 10.
Proof. pose proof (sqrt_sqrt 3 ltac:(lra)). pose proof (sqrt_pos 3). split; apply Rnot_le_lt; intro; nra. Qed.
Lemma sqrt2_bounds : 14 / 10 < sqrt 2 < 15 / 10.
Proof. pose proof (sqrt_sqrt 2 ltac:(lra)). pose proof (sqrt_pos 2). split; apply Rnot_le_lt; intro; nra. Qed.
Lemma cos_ge_PI6 x : 0 <= x <= PI / 6 -> 85 / 100 <= cos x.
Proof.
  intros H. pose proof PI_RGT_0. pose proof sqrt3_bounds. apply Rle_trans with (cos (PI / 6)); [rewrite cos_PI6; lra|].
  apply cos_decr_1; lra.
Qed.
Lemma theta_val s i : theta s i = PI * (7 * INR i - 6 * IZR s) / 21. Proof. unfold theta. field. Qed.
Ltac trig := unfold height; rewrite theta_val; simpl INR.
(** heights of the six samples for a displacement of one row *)
Lemma height_1_1 : 1 + 5 * (85 / 100) <= height 1 1 <= 6.
Proof.
  pose proof PI_RGT_0. trig. set (a := PI * (7 * 1 - 6 * 1) / 21).
  assert (Ea : a = PI / 21) by (unfold a; field).
  pose proof (cos_ge_PI6 a ltac:(lra)). pose proof (cos_ge_PI6 (2 * a) ltac:(lra)). pose proof (cos_ge_PI6 (3 * a) ltac:(lra)).
  pose proof (COS_bound a). pose proof (COS_bound (2 * a)). pose proof (COS_bound (3 * a)). lra.
Qed.
Lemma cos_6PI7 : -1 <= cos (6 * PI / 7) <= - (85 / 100).
Proof.
  pose proof PI_RGT_0. split; [apply COS_bound|]. replace (6 * PI / 7) with (- (PI / 7) + PI) by field. rewrite neg_cos, cos_neg.
  pose proof (cos_ge_PI6 (PI / 7) ltac:(lra)). lra.
Qed.
Lemma height_1_0 : 4 / 10 <= height 1 0 <= 3.
Proof.
  pose proof PI_RGT_0. trig. replace (PI * (7 * 0 - 6 * 1) / 21) with (- (2 * PI / 7)) by field.
  replace (2 * - (2 * PI / 7)) with (- (4 * PI / 7)) by field. replace (3 * - (2 * PI / 7)) with (- (6 * PI / 7)) by field. rewrite !cos_neg.
  pose proof cos_6PI7. pose proof (COS_bound (2 * PI / 7)).
  assert (1 / 2 <= cos (2 * PI / 7)). { rewrite <- cos_PI3. apply cos_decr_1; lra. }
  assert (cos (4 * PI / 7) <= 0). { rewrite <- cos_PI2. apply cos_decr_1; lra. }
  assert (- (3 / 10) <= cos (4 * PI / 7)).
  { (* cos (4 PI / 7) = 2 cos^2 (2 PI / 7) - 1, and cos (2 PI / 7) >= 0.6 *)
    assert (Hc : 6 / 10 <= cos (2 * PI / 7)).
    { apply Rnot_lt_le. intro Hl. set (c := cos (2 * PI / 7)) in *.
      (* 8 c^3 + 4 c^2 - 4 c - 1 = 0 at c = cos (2 PI / 7) *)
      assert (E : cos (4 * (2 * PI / 7)) = cos (3 * (2 * PI / 7))). { replace (4 * (2 * PI / 7)) with (- (3 * (2 * PI / 7)) + 2 * PI) by field. rewrite cos_plus, cos_2PI, sin_2PI, cos_neg. ring. }
      replace (4 * (2 * PI / 7)) with (2 * (2 * (2 * PI / 7))) in E by ring. rewrite cos_2a_cos, cos_2a_cos in E.
      replace (3 * (2 * PI / 7)) with (2 * (2 * PI / 7) + 2 * PI / 7) in E by ring. rewrite cos_plus, cos_2a_cos, sin_2a in E. fold c in E.
      pose proof (sin2_cos2 (2 * PI / 7)) as SC. unfold Rsqr in SC. fold c in SC. set (s := sin (2 * PI / 7)) in *.
      assert (E2 : (2 * (2 * c * c - 1) * (2 * c * c - 1) - 1) = (2 * c * c - 1) * c - 2 * c * (1 - c * c)) by nra.
      assert (E3 : (c - 1) * (8 * c * c * c + 4 * c * c - 4 * c - 1) = 0) by nra.
      assert (8 * c * c * c + 4 * c * c - 4 * c - 1 = 0) by (apply Rmult_integral in E3; destruct E3; lra).
      nra. }
    replace (4 * PI / 7) with (2 * (2 * PI / 7)) by field. rewrite cos_2a_cos. nra. }
  lra.
Qed.
Lemma height_1_2 : -4 <= height 1 2 <= - (25 / 100).
Proof.
  pose proof PI_RGT_0. trig. replace (PI * (7 * (1 + 1) - 6 * 1) / 21) with (8 * PI / 21) by field.
  replace (3 * (8 * PI / 21)) with (2 * PI - 6 * PI / 7) by field. rewrite cos_minus, cos_2PI, sin_2PI.
  pose proof cos_6PI7. pose proof (COS_bound (8 * PI / 21)). pose proof (COS_bound (2 * (8 * PI / 21))).
  assert (cos (8 * PI / 21) <= 1 / 2). { rewrite <- cos_PI3. apply cos_decr_1; lra. }
  assert (cos (2 * (8 * PI / 21)) <= - (7 / 10)).
  { pose proof sqrt2_bounds as S. apply Rle_trans with (cos (3 * (PI / 4))); [apply cos_decr_1; lra|]. rewrite cos_3PI4.
    pose proof (sqrt_sqrt 2 ltac:(lra)). assert (IS : / sqrt 2 = sqrt 2 / 2). { apply Rmult_eq_reg_r with (sqrt 2); [|lra]. rewrite Rinv_l by lra. lra. }
    unfold Rdiv. rewrite IS. lra. }
  lra.
Qed.
Lemma height_1_far i : (3 <= i < 6)%nat -> height 1 i <= 4.
Proof.
  intros Hi. pose proof PI_RGT_0. assert (cos (theta 1 i) <= 0).
  { assert (i = 3 \/ i = 4 \/ i = 5)%nat as [-> | [-> | ->]] by lia; rewrite theta_val; simpl INR; apply cos_le_0; lra. }
  unfold height. pose proof (COS_bound (2 * theta 1 i)). pose proof (COS_bound (3 * theta 1 i)). lra.
Qed.
Definition step_profile (v : nat) (w' : nat) : R := match w' with 0%nat => if Nat.leb 1 v then 1 else 0 | _ => if Nat.leb 2 v then 1 else 0 end.
Definition step_data (v w' u : nat) : R := step_profile v w'.
Lemma step_seen v w' : profile 1 step_data None v w' = step_profile v w'.
Proof. unfold profile, step_data. cbn [rsum]. simpl INR. field. Qed.
Lemma step_scaled v w' : (v < 4)%nat -> unit_scaled 4 (profile 1 step_data None) v w' = step_profile v w'.
Proof.
  intros Hv. unfold unit_scaled.
  assert (B : forall i, 0 <= step_profile i w' <= 1) by (intros i; unfold step_profile; destruct w'; destruct (Nat.leb _ i); lra).
  assert (E0 : rmin 4 (fun v => profile 1 step_data None v w') = 0).
  { apply Rle_antisym.
    - eapply Rle_trans; [apply (rmin_le 4 _ 0); lia|]. cbv beta. rewrite step_seen. destruct w'; simpl; lra.
    - destruct (rmin_attained 4 (fun v => profile 1 step_data None v w') ltac:(lia)) as (i & _ & ->). rewrite step_seen. apply B. }
  assert (E1 : rmax 4 (fun v => profile 1 step_data None v w') = 1).
  { apply Rle_antisym.
    - destruct (rmax_attained 4 (fun v => profile 1 step_data None v w') ltac:(lia)) as (i & _ & ->). rewrite step_seen. apply B.
    - eapply Rle_trans; [|apply (rmax_ge 4 _ 3); lia]. cbv beta. rewrite step_seen. destruct w'; simpl; lra. }
  rewrite E0, E1, step_seen. field.
Qed.
Lemma step_line w' i : (i < 7)%nat -> pre_padded true 4 (fun v => unit_scaled 4 (profile 1 step_data None) v w') i = spike_at (match w' with 0%nat => 2 | _ => 3 end)%nat [i].
Proof.
  intros Hi. unfold pre_padded, spike_at. change (4 / 2)%nat with 2%nat. cbn [nth]. destruct (Nat.leb_spec 2 i) as [A|A]; cbn [andb].
  - destruct (Nat.ltb_spec i (2 + (4 - 1))) as [B|B].
    + rewrite !step_scaled by lia. unfold step_profile. assert (i = 2 \/ i = 3 \/ i = 4)%nat as [-> | [-> | ->]] by lia; destruct w'; simpl; ring.
    + destruct w'; destruct (Nat.eqb_spec i 2); destruct (Nat.eqb_spec i 3); try lia; reflexivity.
  - destruct w'; destruct (Nat.eqb_spec i 2); destruct (Nat.eqb_spec i 3); try lia; reflexivity.
Qed.
Lemma xcorr_ext_in rf nrm eps n d d' p p' l : (forall i, (i < n)%nat -> d [i] = d' [i]) -> (forall i, (i < n)%nat -> p [i] = p' [i]) ->
  xcorr rf nrm eps [] n d p l = xcorr rf nrm eps [] n d' p' l.
Proof.
  intros Ed Ep. unfold xcorr. cbn [app].
  assert (E : xc_spectrum [n] d p = xc_spectrum [n] d' p').
  { apply FunctionalExtensionality.functional_extensionality. intros k. unfold xc_spectrum. f_equal; [|f_equal]; apply dftN_ext; intros m Hm; destruct (inb1 _ _ Hm) as (i & -> & Hi); f_equal; auto. }
  rewrite E. reflexivity.
Qed.
Lemma idx6 : forall l, inb [6%nat] l -> exists i, l = [i] /\ (i < 6)%nat. Proof. apply inb1. Qed.
Lemma inv_hundred d : (2 <= d)%nat -> / (2 * 10 ^ d) <= 5 / 1000.
Proof.
  intros H. replace (5 / 1000) with (/ (2 * 10 ^ 2)) by (simpl; field). apply Rinv_le_contravar; [simpl; lra|]. apply Rmult_le_compat_l; [lra|]. apply Rle_pow; [lra|exact H].
Qed.
Lemma peak_1 (cc : arr) : peak_line [6%nat] cc [1%nat] 0 0%nat = cc [0%nat] /\ peak_line [6%nat] cc [1%nat] 0 1%nat = cc [1%nat] /\ peak_line [6%nat] cc [1%nat] 0 2%nat = cc [2%nat].
Proof. unfold peak_line. cbn [nth set_nth]. vm_compute imod. repeat split. Qed.
Lemma peak_0 (cc : arr) : peak_line [6%nat] cc [0%nat] 0 0%nat = cc [5%nat] /\ peak_line [6%nat] cc [0%nat] 0 1%nat = cc [0%nat] /\ peak_line [6%nat] cc [0%nat] 0 2%nat = cc [1%nat].
Proof. unfold peak_line. cbn [nth set_nth]. vm_compute imod. repeat split. Qed.
(** the two lines of the example: displaced by one row / identical *)
Lemma step_displaced fit (normalize : bool) eps dec : 0 < eps -> (2 <= dec)%nat -> (forall f, fits fit 3 (centred 3) f) ->
  exists x, pre_find fit true (if normalize then NormMax else NoNorm) eps dec 7
    (pre_padded true 4 (fun v => unit_scaled 4 (profile 1 step_data None) v 1)) (pre_padded true 4 (fun v => unit_scaled 4 (profile 1 step_data None) v 0)) = inr x /\ 1 / 2 <= x <= 985 / 1000.
Proof.
  intros He Hd F. unfold pre_find. change (xc_out true [] 7) with [6%nat]. cbn [nth]. set (nrm := if normalize then NormMax else NoNorm).
  destruct (spikes_cc normalize eps He 3 2 ltac:(lia) ltac:(lia)) as (c0 & Hc & HC). fold nrm in HC.
  set (cc := xcorr true nrm eps [] 7 _ _).
  assert (CC : forall i, cc [i] = c0 * height 1 i).
  { intros i. unfold cc. rewrite (xcorr_ext_in true nrm eps 7 _ (spike_at 3) _ (spike_at 2)) by (intros; cbn [nth]; apply step_line; assumption). rewrite HC. reflexivity. }
  pose proof height_1_1 as H1. pose proof height_1_0 as H0. pose proof height_1_2 as H2.
  assert (PK : argmax [6%nat] cc = [1%nat]).
  { apply argmax_unique; [repeat constructor|]. intros l Hl Hn. destruct (idx6 l Hl) as (i & -> & Hi). rewrite !CC. apply Rmult_lt_compat_l; [exact Hc|].
    destruct i as [|[|[|i]]]; [lra|congruence|lra|]. pose proof (height_1_far (S (S (S i))) ltac:(lia)). lra. }
  rewrite PK. clearbody cc. destruct (peak_1 cc) as (K0 & K1 & K2). set (f := peak_line [6%nat] cc [1%nat] 0) in *.
  assert (F0 : f 0%nat = c0 * height 1 0) by (rewrite K0; apply CC).
  assert (F1 : f 1%nat = c0 * height 1 1) by (rewrite K1; apply CC).
  assert (F2 : f 2%nat = c0 * height 1 2) by (rewrite K2; apply CC).
  assert (MM : mid_max f). { unfold mid_max. rewrite F0, F1, F2. split; [apply Rmult_le_compat_l; lra|split; [apply Rmult_le_compat_l; lra|]]. intros [Q _]. apply Rmult_eq_reg_l in Q; lra. }
  destruct (C74_refine_interior fit dec f (F f) MM) as (x & val & E & Bx & Nx). rewrite E. exists (x + IZR (fftfreq 6 1)). split; [reflexivity|].
  change (fftfreq 6 1) with 1%Z.
  assert (VX : vertex3 f <= - (21 / 1000)).
  { unfold vertex3. rewrite F0, F1, F2. set (h0 := height 1 0) in *. set (h1 := height 1 1) in *. set (h2 := height 1 2) in *.
    assert (HD : 2 * h1 - h0 - h2 <> 0) by lra.
    assert (HV : (c0 * h0 - c0 * h2) / (2 * (c0 * h0 + c0 * h2 - 2 * (c0 * h1))) = - ((h0 - h2) / (2 * (2 * h1 - h0 - h2)))).
    { replace (2 * (c0 * h0 + c0 * h2 - 2 * (c0 * h1))) with (- (c0 * (2 * (2 * h1 - h0 - h2)))) by ring.
      replace (c0 * h0 - c0 * h2) with (c0 * (h0 - h2)) by ring. set (q := 2 * h1 - h0 - h2) in *. field. split; lra. }
    rewrite HV.
    apply Ropp_le_contravar. apply Rmult_le_reg_r with (2 * (2 * h1 - h0 - h2)); [lra|]. unfold Rdiv at 2. rewrite Rmult_assoc, Rinv_l by lra. lra. }
  pose proof (inv_hundred dec Hd). unfold Rabs in Nx. destruct (Rcase_abs (x - vertex3 f)); lra.
Qed.
Lemma height_0_sym : height 0 5 = height 0 1.
Proof.
  unfold height. assert (E : theta 0 5 = - theta 0 1 + 2 * PI) by (rewrite !theta_val; simpl INR; field). rewrite E.
  assert (P : forall (k : nat) y, cos (y + 2 * INR k * PI) = cos y) by (intros; apply cos_period).
  replace (2 * (- theta 0 1 + 2 * PI)) with (- (2 * theta 0 1) + 2 * INR 2 * PI) by (simpl INR; ring).
  replace (3 * (- theta 0 1 + 2 * PI)) with (- (3 * theta 0 1) + 2 * INR 3 * PI) by (simpl INR; ring).
  replace (- theta 0 1 + 2 * PI) with (- theta 0 1 + 2 * INR 1 * PI) by (simpl INR; ring). rewrite !P, !cos_neg. reflexivity.
Qed.
Lemma height_0_0 : height 0 0 = 6.
Proof. unfold height. replace (theta 0 0) with 0 by (rewrite theta_val; simpl INR; field). rewrite !Rmult_0_r, cos_0. lra. Qed.
Lemma height_0_far i : (0 < i < 6)%nat -> height 0 i < 6.
Proof.
  intros Hi. pose proof PI_RGT_0. assert (Q : cos (theta 0 i) < 1).
  { assert (i = 1 \/ i = 2 \/ i = 3 \/ i = 4 \/ i = 5)%nat as D by lia.
    assert (G : forall y, 0 < y < PI -> cos y < 1) by (intros y Hy; rewrite <- cos_0; apply cos_decreasing_1; lra).
    destruct D as [-> | [-> | [-> | [-> | ->]]]]; rewrite theta_val; simpl INR.
    - apply G. lra.
    - apply G. lra.
    - replace (PI * (7 * (1 + 1 + 1) - 6 * 0) / 21) with PI by field. rewrite cos_PI. lra.
    - replace (PI * (7 * (1 + 1 + 1 + 1) - 6 * 0) / 21) with (- (2 * PI / 3) + 2 * INR 1 * PI) by (simpl INR; field). rewrite cos_period, cos_neg. apply G. lra.
    - replace (PI * (7 * (1 + 1 + 1 + 1 + 1) - 6 * 0) / 21) with (- (PI / 3) + 2 * INR 1 * PI) by (simpl INR; field). rewrite cos_period, cos_neg. apply G. lra. }
  unfold height. pose proof (COS_bound (2 * theta 0 i)). pose proof (COS_bound (3 * theta 0 i)). lra.
Qed.
Lemma step_itself fit (normalize : bool) eps dec : 0 < eps -> (2 <= dec)%nat -> (forall f, fits fit 3 (centred 3) f) ->
  pre_find fit true (if normalize then NormMax else NoNorm) eps dec 7
    (pre_padded true 4 (fun v => unit_scaled 4 (profile 1 step_data None) v 1)) (pre_padded true 4 (fun v => unit_scaled 4 (profile 1 step_data None) v 1)) = inr 0.
Proof.
  intros He Hd F. unfold pre_find. change (xc_out true [] 7) with [6%nat]. cbn [nth]. set (nrm := if normalize then NormMax else NoNorm).
  destruct (spikes_cc normalize eps He 3 3 ltac:(lia) ltac:(lia)) as (c0 & Hc & HC). fold nrm in HC.
  set (cc := xcorr true nrm eps [] 7 _ _).
  assert (CC : forall i, cc [i] = c0 * height 0 i).
  { intros i. unfold cc. rewrite (xcorr_ext_in true nrm eps 7 _ (spike_at 3) _ (spike_at 3)) by (intros; cbn [nth]; apply step_line; assumption). rewrite HC. reflexivity. }
  pose proof height_0_0 as H0.
  assert (PK : argmax [6%nat] cc = [0%nat]).
  { apply argmax_unique; [repeat constructor|]. intros l Hl Hn. destruct (idx6 l Hl) as (i & -> & Hi). rewrite !CC. apply Rmult_lt_compat_l; [exact Hc|].
    rewrite H0. apply height_0_far. destruct i; [congruence|lia]. }
  rewrite PK. clearbody cc. destruct (peak_0 cc) as (K0 & K1 & K2). destruct (refine_zero fit dec (peak_line [6%nat] cc [0%nat] 0) (F _)) as [val E].
  - rewrite K0, K2, !CC, height_0_sym. reflexivity.
  - rewrite K0, K1, !CC. apply Rmult_lt_compat_l; [exact Hc|]. rewrite H0. apply height_0_far. lia.
  - rewrite E. cbn [nth]. change (fftfreq 6 0) with 0%Z. now rewrite Rplus_0_l.
Qed.
Definition step_feature (z : Z) : R := if Z.leb 1 z then 1 else 0.
Definition step_pos (w' : nat) : Z := match w' with 0%nat => 0 | _ => -1 end%Z.
Lemma step_displaced_profiles : displaced_profiles 4 2 (profile 1 step_data None) step_feature 0 1 step_pos.
Proof.
  unfold displaced_profiles, step_feature. split; [|split; [|split; [|split; [|split]]]].
  - exists (fun _ => 1), (fun _ => 0). intros v w' Hv Hw. split; [lra|]. rewrite step_seen. unfold step_profile, step_pos.
    destruct w' as [|w'']; [destruct (Nat.leb_spec 1 v), (Z.leb_spec 1 (Z.of_nat v + 0)) | destruct (Nat.leb_spec 2 v), (Z.leb_spec 1 (Z.of_nat v + -1))]; try lia; ring.
  - intros z Hz. destruct (Z.leb_spec 1 z); [lia|]. reflexivity.
  - intros z Hz. destruct (Z.leb_spec 1 z); [reflexivity|lia].
  - exists 1%Z. simpl. lra.
  - lia.
  - intros w' Hw. unfold step_pos. destruct w'; lia.
Qed.
(** With the default settings (real transform, derivative) and an EVEN number of rows the sub-pixel shifts are wrong even for noiseless
    data that moved by a whole number of rows: the inverse transform returns one sample less than went in.  Two projections of four rows,
    one row apart (shifts 1/2 and -1/2 once the mean is removed), come out less than 0.995 rows apart, for every requested precision of
    at least two decimals and with or without normalisation. *)
Theorem C204_default_even_refuted : forall fit normalize eps dec maxs, 0 < eps -> (2 <= dec)%nat -> 1 <= maxs -> (forall f, fits fit 3 (centred 3) f) ->
  displaced_profiles 4 2 (profile 1 step_data None) step_feature 0 1 step_pos /\
  (forall w', (w' < 2)%nat -> Rabs (IZR (step_pos w' - step_pos (2 / 2)%nat)) <= maxs) /\
  right_shifts dec 2 step_pos = [1 / 2; - (1 / 2)] /\
  exists a b, fit_v fit true true normalize eps dec 4 2 1 maxs step_data None = inr [a; b] /\ a - b <= 995 / 1000.
Proof.
  intros fit normalize eps dec maxs He Hd Hm F. split; [exact step_displaced_profiles|]. split; [|split].
  - intros w' Hw. change (2 / 2)%nat with 1%nat. destruct w' as [|[|]]; try lia; cbn [step_pos]; [change (0 - -1)%Z with 1%Z; rewrite Rabs_R1; lra|change (-1 - -1)%Z with 0%Z; rewrite Rabs_R0; lra].
  - unfold right_shifts. cbn [seq map rsum step_pos]. simpl INR.
    assert (E5 : 1 / 2 = IZR (5 * 10 ^ Z.of_nat (dec - 1)) / 10 ^ dec).
    { rewrite mult_IZR, <- pow_IZR. replace dec with (S (dec - 1)) at 2 by lia. cbn [pow]. field. apply pow_nonzero. lra. }
    assert (E : np_around dec (1 / 2) = 1 / 2) by (rewrite E5; apply around_fix).
    assert (E' : np_around dec (- (1 / 2)) = - (1 / 2)).
    { replace (- (1 / 2)) with (IZR (- (5 * 10 ^ Z.of_nat (dec - 1))) / 10 ^ dec) by (rewrite opp_IZR; unfold Rdiv at 1; rewrite Ropp_mult_distr_l_reverse; f_equal; symmetry; exact E5). apply around_fix. }
    replace (0 - (0 + 0 + -1) / (1 + 1)) with (1 / 2) by field. replace (-1 - (0 + 0 + -1) / (1 + 1)) with (- (1 / 2)) by field. rewrite E, E'. reflexivity.
  - destruct (step_displaced fit normalize eps dec He Hd F) as (x & Ex & Bx). pose proof (step_itself fit normalize eps dec He Hd F) as E0.
    unfold fit_v. cbn [Nat.leb]. change (2 / 2)%nat with 1%nat. change (pre_length true 4) with 7%nat. cbn [seq map]. rewrite Ex, E0. cbn [all_results map].
    assert (F1 : filter1 maxs x = x) by (unfold filter1; destruct (Rlt_dec _ _) as [Q|Q]; [rewrite Rabs_right in Q; lra|reflexivity]).
    assert (F0 : filter1 maxs 0 = 0) by (unfold filter1; destruct (Rlt_dec _ _) as [Q|Q]; reflexivity). rewrite F1, F0.
    eexists. eexists. split; [reflexivity|]. cbn [fold_right]. simpl INR.
    match goal with |- np_around _ ?y - np_around _ ?z <= _ => pose proof (around_near dec y) as N1; pose proof (around_near dec z) as N2; assert (E1 : y = x / 2) by field; assert (E2 : z = - (x / 2)) by field end.
    rewrite E1 in *. rewrite E2 in *. pose proof (inv_hundred dec Hd). set (y1 := np_around dec (x / 2)) in *. set (y2 := np_around dec (- (x / 2))) in *.
    unfold Rabs in N1, N2. destruct (Rcase_abs (y1 - x / 2)); destruct (Rcase_abs (y2 - - (x / 2))); lra.
Qed.
(** the same data with the complex transform, and five rows with the real one: exact *)
Lemma step_displaced_rows V : (4 <= V)%nat -> displaced_profiles V 2 (profile 1 step_data None) step_feature 0 1 step_pos.
Proof.
  intros HV. destruct step_displaced_profiles as ((gain & offset & _) & A & B & C & D & _). split; [|split; [exact A|split; [exact B|split; [exact C|split; [exact D|]]]]].
  - exists (fun _ => 1), (fun _ => 0). intros v w' Hv Hw. split; [lra|]. rewrite step_seen. unfold step_profile, step_pos, step_feature.
    destruct w' as [|w'']; [destruct (Nat.leb_spec 1 v), (Z.leb_spec 1 (Z.of_nat v + 0)) | destruct (Nat.leb_spec 2 v), (Z.leb_spec 1 (Z.of_nat v + -1))]; try lia; ring.
  - intros w' Hw. unfold step_pos. destruct w'; lia.
Qed.
Example C204_example fit eps dec : 0 < eps -> (1 <= dec)%nat -> (forall f, fits fit 3 (centred 3) f) ->
  fit_v fit true false true eps dec 4 2 1 1 step_data None = inr (right_shifts dec 2 step_pos) /\
  fit_v fit true true true eps dec 5 2 1 1 step_data None = inr (right_shifts dec 2 step_pos).
Proof.
  intros He Hd F.
  assert (HM : forall w', (w' < 2)%nat -> Rabs (IZR (step_pos w' - step_pos (2 / 2)%nat)) <= 1).
  { intros w' Hw. change (2 / 2)%nat with 1%nat. destruct w' as [|[|]]; try lia; cbn [step_pos]; [change (0 - -1)%Z with 1%Z; rewrite Rabs_R1; lra|change (-1 - -1)%Z with 0%Z; rewrite Rabs_R0; lra]. }
  split; apply (C204_derivative fit _ true eps dec _ 2 1 1 step_data None step_feature 0 1 step_pos); try assumption; try lia; try (apply step_displaced_rows; lia).
  - intros _. exists 2%nat. reflexivity.
Qed.
Definition bump_data (v w' u : nat) : R := if Nat.eqb v (match w' with 0%nat => 1 | _ => 2 end)%nat then 1 else 0.
Example C204_example_plain fit eps dec : 0 < eps -> (1 <= dec)%nat -> (forall f, fits fit 3 (centred 3) f) ->
  fit_v fit false true true eps dec 4 2 1 1 bump_data None = inr (right_shifts dec 2 step_pos).
Proof.
  intros He Hd F. eapply (C204_no_derivative fit true true eps dec 4 2 1 1 bump_data None (fun z => if Z.eqb z 1 then 1 else 0) 0 2 step_pos); try assumption; try lia.
  - split; [|split; [|split; [|split; [|split]]]].
    + exists (fun _ => 1), (fun _ => 0). intros v w' Hv Hw. split; [lra|]. unfold profile, bump_data, step_pos. cbn [rsum]. simpl INR.
      destruct w' as [|w'']; [destruct (Nat.eqb_spec v 1), (Z.eqb_spec (Z.of_nat v + 0) 1) | destruct (Nat.eqb_spec v 2), (Z.eqb_spec (Z.of_nat v + -1) 1)]; try lia; field.
    + intros z Hz. destruct (Z.eqb_spec z 1); [lia|reflexivity].
    + intros z Hz. destruct (Z.eqb_spec z 1); [lia|reflexivity].
    + exists 1%Z. simpl. lra.
    + lia.
    + intros w' Hw. unfold step_pos. destruct w'; lia.
  - intros z. destruct (Z.eqb z 1); simpl; lra.
  - reflexivity.
  - intros w' Hw. change (2 / 2)%nat with 1%nat. destruct w' as [|[|]]; try lia; cbn [step_pos]; [change (0 - -1)%Z with 1%Z; rewrite Rabs_R1; lra|change (-1 - -1)%Z with 0%Z; rewrite Rabs_R0; lra].
  - intros _. exists 2%nat. reflexivity.
Qed.

(** the profiles themselves: the mean over the columns; with a mask, what is under it does not matter *)
Theorem C204_profile : forall U data v w', (0 < U)%nat -> INR U * profile U data None v w' = rsum U (fun u => data v w' u).
Proof. intros U data v w' HU. unfold profile. field. apply not_0_INR. lia. Qed.
Theorem C204_masked_profile : forall U data mask v w',
  (forall u, (u < U)%nat -> mask v w' u = 0 \/ mask v w' u = 1) ->
  (forall data', (forall u, (u < U)%nat -> mask v w' u = 1 -> data' v w' u = data v w' u) -> profile U data' (Some mask) v w' = profile U data (Some mask) v w') /\
  (forall y, (exists u, (u < U)%nat /\ mask v w' u = 1) -> (forall u, (u < U)%nat -> mask v w' u = 1 -> data v w' u = y) -> profile U data (Some mask) v w' = y) /\
  ((forall u, (u < U)%nat -> mask v w' u = 0) -> profile U data (Some mask) v w' = 0).
Proof.
  intros U data mask v w' HM. split; [|split].
  - intros data' E. unfold profile. cbv zeta. f_equal. apply rsum_ext. intros u Hu. destruct (HM u Hu) as [Z|O]; [rewrite Z; ring|rewrite (E u Hu O); reflexivity].
  - intros y (u0 & Hu0 & O0) E. unfold profile. cbv zeta.
    rewrite (rsum_ext U (fun u => data v w' u * mask v w' u) (fun u => y * mask v w' u)) by (intros u Hu; destruct (HM u Hu) as [Z|O]; [rewrite Z; ring|rewrite (E u Hu O); reflexivity]).
    rewrite rsum_scal. assert (P : 0 < rsum U (fun u => mask v w' u)).
    { apply Rlt_le_trans with (mask v w' u0); [lra|]. apply (rsum_term_le U (fun u => mask v w' u)); [|exact Hu0]. intros u Hu. destruct (HM u Hu); lra. }
    change (y * rsum U (mask v w') / (rsum U (mask v w') + (if Req_EM_T (rsum U (mask v w')) 0 then 1 else 0)) = y). change (0 < rsum U (mask v w')) in P.
    destruct (Req_EM_T (rsum U (mask v w')) 0) as [Q|Q]; [lra|]. rewrite Rplus_0_r. field. lra.
  - intros Z. unfold profile. cbv zeta. rewrite (rsum_zero U (fun u => data v w' u * mask v w' u)) by (intros u Hu; rewrite (Z u Hu); ring). unfold Rdiv. ring.
Qed.
