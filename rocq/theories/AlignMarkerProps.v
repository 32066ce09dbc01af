(** C139: marker images and their tracking. *)
From Coq Require Import Reals Lra Lia List ZArith Bool String.
From Verif Require Import Sums PyErr Arrays Rounding GeometryModel OperatorsModel OperatorsMoreProps ProcMiscProps Reindex Fourier FourierN FourierBox AlignFitModel AlignFitProps AlignXcProps AlignShiftProps AlignMiscModel AlignMiscProps.
Import ListNotations.
Open Scope R_scope.
Local Notation length := List.length.

Lemma lsum_cons {A} (a : A) l f : lsum (a :: l) f = f a + lsum l f. Proof. reflexivity. Qed.
(** the offset, in sub-samples, of sub-sample e of pixel k from the middle of pixel n // 2 *)
Fixpoint sub_offset (ss : nat) (s k e : list nat) : list Z :=
  match s, k, e with
  | n :: s', i :: k', j :: e' => ((Z.of_nat i - Z.of_nat (n / 2)) * Z.of_nat ss + Z.of_nat j - Z.of_nat (ss / 2))%Z :: sub_offset ss s' k' e'
  | _, _, _ => []
  end.
Lemma disk_index ss s : (0 < ss)%nat -> forall k e, inb s k -> inb (map (fun _ => ss) s) e ->
  tadd (fine s ss) (block_at ss (tadd s k (map (fun n => - Z.of_nat (n / 2))%Z s)) e) (map (fun _ => - Z.of_nat (ss / 2))%Z (fine s ss)) = tor (fine s ss) (sub_offset ss s k e).
Proof.
  intros Hs. unfold tadd, block_at, fine. induction s as [|n s IH]; intros k e Ik Ie; simpl in Ie; inversion Ik; inversion Ie; subst; [reflexivity|].
  cbn [map zl zadd tor combine fst snd sub_offset]. f_equal; [|apply IH; assumption].
  apply imod_mod; [nia|]. set (a := (Z.of_nat x + - Z.of_nat (n / 2))%Z). rewrite Nat2Z.inj_add, !Nat2Z.inj_mul, imod_of by lia.
  pose proof (Z.div_mod a (Z.of_nat n) ltac:(lia)) as E. set (q := (a / Z.of_nat n)%Z) in *. set (r := (a mod Z.of_nat n)%Z) in *.
  replace (Z.of_nat x - Z.of_nat (n / 2))%Z with a by (unfold a; lia). set (h := Z.of_nat (ss / 2)).
  replace (a * Z.of_nat ss + Z.of_nat x0 - h)%Z with (r * Z.of_nat ss + Z.of_nat x0 + - h + q * (Z.of_nat n * Z.of_nat ss))%Z by (rewrite E; ring).
  rewrite Z.mod_add by nia. reflexivity.
Qed.
Lemma disk_value s r ss k : (0 < ss)%nat -> inb s k ->
  create_marker_disk s r ss k =
  bsum (map (fun _ => ss) s) (fun e => if Rlt_dec (grid_dist (fine s ss) (tor (fine s ss) (sub_offset ss s k e))) (r * INR ss) then 1 else 0) / INR ss ^ length s.
Proof.
  intros Hs Ik. unfold create_marker_disk, roll_all, block_mean. f_equal. apply bsum_ext. intros e Ie. unfold probe.
  rewrite (disk_index ss s Hs k e Ik Ie). reflexivity.
Qed.
Lemma grid_dist_arg D t : grid_dist D (tor D t) = sqrt (lsum (combine D (tor D t)) (fun p => IZR (fftfreq (fst p) (snd p)) ^ 2)).
Proof. reflexivity. Qed.
Lemma fftfreq_imod_small n t : (0 < n)%nat -> (- Z.of_nat n <= 2 * t < Z.of_nat n)%Z -> fftfreq n (imod n t) = t.
Proof.
  intros Hn Ht. assert (E : [fftfreq n (imod n t)] = [t]). { apply (signed_small [n]); [split; [now apply fftfreq_signed|exact I]|constructor; [exact Ht|constructor]]. }
  now injection E.
Qed.
Lemma fftfreq_neg_sq n t : (0 < n)%nat -> (fftfreq n (imod n (- t)) * fftfreq n (imod n (- t)) = fftfreq n (imod n t) * fftfreq n (imod n t))%Z.
Proof.
  intros Hn. destruct (fftfreq_signed n t Hn) as [A1 A2]. destruct (fftfreq_signed n (- t) Hn) as [B1 B2].
  set (a := fftfreq n (imod n t)) in *. set (b := fftfreq n (imod n (- t))) in *. clearbody a b. set (N := Z.of_nat n) in *. assert (HN : (0 < N)%Z) by (unfold N; lia). clearbody N.
  assert (X : ((a + b) mod N = 0)%Z). { rewrite Z.add_mod by lia. rewrite A1, B1. rewrite <- Z.add_mod by lia. replace (t + - t)%Z with 0%Z by lia. apply Z.mod_0_l. lia. }
  pose proof (Z.div_mod (a + b) N ltac:(lia)) as E. rewrite X in E. set (c := ((a + b) / N)%Z) in *. clearbody c.
  assert (c = 0 \/ c = -1)%Z as [->| ->] by nia; [assert (b = - a)%Z by lia; subst; ring|]. assert (a = b) by lia. now subst.
Qed.
(** the mirror image of pixel k about the pixel n // 2, on the torus *)
Definition mirror (s k : list nat) : list nat := map (fun p => imod (fst p) (2 * Z.of_nat (fst p / 2) - Z.of_nat (snd p))) (combine s k).
Lemma mirror_inb s k : inb s k -> inb s (mirror s k).
Proof. unfold mirror. induction 1; simpl; constructor; [apply imod_lt; lia|assumption]. Qed.
Lemma mirror_dist ss h s : ss = (2 * h + 1)%nat -> forall k e, inb s k -> inb (map (fun _ => ss) s) e ->
  let D := fine s ss in
  lsum (combine D (tor D (sub_offset ss s (mirror s k) (map (fun t => (fst t - 1 - snd t)%nat) (combine (map (fun _ => ss) s) e))))) (fun p => IZR (fftfreq (fst p) (snd p)) ^ 2)
  = lsum (combine D (tor D (sub_offset ss s k e))) (fun p => IZR (fftfreq (fst p) (snd p)) ^ 2).
Proof.
  intros Hss. unfold fine, mirror. induction s as [|n s IH]; intros k e Ik Ie; simpl in Ie; [inversion Ik; inversion Ie; reflexivity|].
  destruct k as [|x k]; [inversion Ik|]. destruct e as [|i e]; [inversion Ie|]. apply inb_cons in Ik as [Hx Ik]. apply inb_cons in Ie as [Hi Ie]. subst ss. cbv zeta.
  cbn [map combine fst snd sub_offset tor]. rewrite !(lsum_cons). cbn [fst snd]. cbv zeta in IH. rewrite IH by assumption. f_equal.
  assert (H0 : (0 < n * (2 * h + 1))%nat) by nia.
  assert (E : imod (n * (2 * h + 1)) ((Z.of_nat (imod n (2 * Z.of_nat (n / 2) - Z.of_nat x)) - Z.of_nat (n / 2)) * Z.of_nat (2 * h + 1) + Z.of_nat (2 * h + 1 - 1 - i) - Z.of_nat ((2 * h + 1) / 2))
    = imod (n * (2 * h + 1)) (- ((Z.of_nat x - Z.of_nat (n / 2)) * Z.of_nat (2 * h + 1) + Z.of_nat i - Z.of_nat ((2 * h + 1) / 2)))%Z).
  { apply imod_mod; [exact H0|]. assert (Eh : ((2 * h + 1) / 2 = h)%nat) by (symmetry; apply (Nat.div_unique (2 * h + 1) 2 h 1); lia). rewrite Eh.
    rewrite imod_of by lia. set (a := (2 * Z.of_nat (n / 2) - Z.of_nat x)%Z). pose proof (Z.div_mod a (Z.of_nat n) ltac:(lia)) as Q. set (q := (a / Z.of_nat n)%Z) in *. set (r := (a mod Z.of_nat n)%Z) in *.
    set (N2 := Z.of_nat (n / 2)) in *. rewrite Nat2Z.inj_mul, Nat2Z.inj_sub, Nat2Z.inj_sub by lia.
    replace (- ((Z.of_nat x - N2) * Z.of_nat (2 * h + 1) + Z.of_nat i - Z.of_nat h))%Z with ((r - N2) * Z.of_nat (2 * h + 1) + (Z.of_nat (2 * h + 1) - Z.of_nat 1 - Z.of_nat i) - Z.of_nat h + q * (Z.of_nat n * Z.of_nat (2 * h + 1)))%Z.
    - rewrite Z.mod_add by nia. reflexivity.
    - assert (Hxx : (Z.of_nat x = 2 * N2 - (Z.of_nat n * q + r))%Z) by (unfold a in Q; lia). rewrite Hxx. rewrite Nat2Z.inj_add, Nat2Z.inj_mul. ring. }
  rewrite E. set (T := (_ + Z.of_nat i - _)%Z). pose proof (fftfreq_neg_sq (n * (2 * h + 1)) T H0) as Sq. apply (f_equal IZR) in Sq. rewrite !mult_IZR in Sq. lra.
Qed.
(** * C139.  With an odd super-sampling factor the marker is symmetric about the pixel n // 2 along every axis ... *)
Theorem C139_symmetric : forall s r h k, inb s k -> create_marker_disk s r (2 * h + 1) (mirror s k) = create_marker_disk s r (2 * h + 1) k.
Proof.
  intros s r h k Ik. set (ss := (2 * h + 1)%nat). rewrite !disk_value by (assumption || (unfold ss; lia) || now apply mirror_inb). f_equal.
  rewrite bsum_flip. apply bsum_ext. intros e Ie. rewrite !grid_dist_arg. rewrite (mirror_dist ss h s eq_refl k e Ik Ie). reflexivity.
Qed.
(** ... its values are between 0 and 1 ... *)
Theorem C139_range : forall s r ss k, (0 < ss)%nat -> inb s k -> 0 <= create_marker_disk s r ss k <= 1.
Proof.
  intros s r ss k Hs Ik. rewrite disk_value by assumption. assert (P : 0 < INR ss ^ length s) by (apply pow_lt, lt_0_INR; lia).
  assert (Sz : bsum (map (fun _ => ss) s) (fun _ => 1) = INR ss ^ length s).
  { rewrite bsum_1. clear. induction s as [|n s IH]; [reflexivity|]. simpl size. rewrite mult_INR. cbn [length pow]. now rewrite IH. }
  split.
  - apply Rmult_le_pos; [apply bsum_nonneg; intros; destruct (Rlt_dec _ _); lra|left; now apply Rinv_0_lt_compat].
  - apply Rmult_le_reg_r with (INR ss ^ length s); [exact P|]. unfold Rdiv. rewrite Rmult_assoc, Rinv_l, Rmult_1_r, Rmult_1_l by lra. rewrite <- Sz. apply bsum_le. intros; destruct (Rlt_dec _ _); lra.
Qed.
(** ... and the value of a pixel is the fraction of its sub-samples that are closer than the radius to the middle of pixel n // 2.
    (Row 0 of an even-sized axis wraps around.) *)
Fixpoint dist2 (ss : nat) (s k e : list nat) : R :=
  match s, k, e with
  | n :: s', i :: k', j :: e' => (INR i - INR (n / 2) + (INR j - INR (ss / 2)) / INR ss) ^ 2 + dist2 ss s' k' e'
  | _, _, _ => 0
  end.
Lemma sub_offset_dist ss s : (0 < ss)%nat -> forall k e, inb s k -> inb (map (fun _ => ss) s) e ->
  (forall a, (a < length s)%nat -> (nth a k 0 <> 0 \/ Nat.odd (nth a s 0) = true)%nat) ->
  lsum (combine (fine s ss) (tor (fine s ss) (sub_offset ss s k e))) (fun p => IZR (fftfreq (fst p) (snd p)) ^ 2) = INR ss ^ 2 * dist2 ss s k e.
Proof.
  intros Hs. unfold fine. induction s as [|n s IH]; intros k e Ik Ie Hk; simpl in Ie; inversion Ik; inversion Ie; subst; [unfold lsum; simpl; ring|].
  cbn [map combine fst snd sub_offset tor dist2]. rewrite lsum_cons. cbn [fst snd]. rewrite IH; [|assumption|assumption|intros a Ha; apply (Hk (S a)); simpl; lia].
  assert (P : 0 < INR ss) by (apply lt_0_INR; lia).
  rewrite fftfreq_imod_small; [|nia|].
  - rewrite minus_IZR, plus_IZR, mult_IZR, minus_IZR, <- !INR_IZR_INZ. field. lra.
  - specialize (Hk 0%nat ltac:(simpl; lia)). simpl in Hk. pose proof (Nat.div_mod n 2 ltac:(lia)) as Dn. pose proof (Nat.mod_upper_bound n 2 ltac:(lia)).
    pose proof (Nat.div_mod ss 2 ltac:(lia)) as Ds. pose proof (Nat.mod_upper_bound ss 2 ltac:(lia)). set (m := (n / 2)%nat) in *. set (g := (ss / 2)%nat) in *.
    assert (L : (- (Z.of_nat n - 1) <= 2 * (Z.of_nat x - Z.of_nat m) <= Z.of_nat n - 1)%Z).
    { destruct Hk as [Hk|Ho]; [lia|]. apply Nat.odd_spec in Ho as [c Hc]. assert (n mod 2 = 1)%nat by (rewrite Hc, Nat.add_comm, Nat.mul_comm, Nat.mod_add by lia; reflexivity). lia. }
    rewrite Nat2Z.inj_mul. set (X := (Z.of_nat x - Z.of_nat m)%Z) in *. assert (0 <= Z.of_nat x0 < Z.of_nat ss)%Z by lia.
    assert (Hg : (2 * Z.of_nat g <= Z.of_nat ss < 2 * Z.of_nat g + 2)%Z) by lia. set (S := Z.of_nat ss) in *. set (N := Z.of_nat n) in *. set (G := Z.of_nat g) in *. set (J := Z.of_nat x0) in *. clearbody X S N G J.
    nia.
Qed.
Theorem C139_disk_pixel : forall s r ss k, (0 < ss)%nat -> 0 <= r -> inb s k ->
  (forall a, (a < length s)%nat -> (nth a k 0 <> 0 \/ Nat.odd (nth a s 0) = true)%nat) ->
  create_marker_disk s r ss k = bsum (map (fun _ => ss) s) (fun e => if Rlt_dec (dist2 ss s k e) (r ^ 2) then 1 else 0) / INR ss ^ length s.
Proof.
  intros s r ss k Hs Hr Ik Hk. rewrite disk_value by assumption. f_equal. apply bsum_ext. intros e Ie. rewrite grid_dist_arg, sub_offset_dist by assumption.
  assert (P : 0 < INR ss) by (apply lt_0_INR; lia). assert (N : 0 <= dist2 ss s k e).
  { clear. revert k e. induction s as [|n s IH]; intros [|i k] [|j e]; cbn [dist2]; try lra. pose proof (IH k e). pose proof (pow2_ge_0 (INR i - INR (n / 2) + (INR j - INR (ss / 2)) / INR ss)). lra. }
  rewrite sqrt_mult by (try exact N; apply pow2_ge_0). rewrite sqrt_pow2 by lra.
  destruct (Rlt_dec (INR ss * sqrt (dist2 ss s k e)) (r * INR ss)) as [A|A]; destruct (Rlt_dec (dist2 ss s k e) (r ^ 2)) as [B|B]; try reflexivity; exfalso.
  - apply B. assert (Q : sqrt (dist2 ss s k e) < r) by nra. pose proof (sqrt_pos (dist2 ss s k e)). rewrite <- (sqrt_sqrt (dist2 ss s k e)) by exact N. nra.
  - apply A. assert (Q : sqrt (dist2 ss s k e) < r) by (rewrite <- (sqrt_pow2 r) by exact Hr; apply sqrt_lt_1; [exact N|apply pow2_ge_0|exact B]). nra.
Qed.
(** REFUTED for an even factor: the disk of radius 1 on a 4 x 4 image with super_sampling = 2 covers half of the pixel on one side of
    the centre and nothing of the pixel on the other side. *)
Theorem C139_even_sampling_refuted : create_marker_disk [4; 4]%nat 1 2 [2; 3]%nat = 1 / 2 /\ create_marker_disk [4; 4]%nat 1 2 [2; 1]%nat = 0 /\
  mirror [4; 4]%nat [2; 3]%nat = [2; 1]%nat.
Proof.
  assert (B : forall k, (k = [2; 3] \/ k = [2; 1])%nat -> inb [4; 4]%nat k /\ forall a, (a < 2)%nat -> (nth a k 0 <> 0 \/ Nat.odd (nth a [4; 4] 0) = true)%nat).
  { intros k [->| ->]; (split; [repeat constructor; lia|]); intros [|[|]] Ha; simpl; try lia; left; lia. }
  split; [|split; [|reflexivity]].
  - rewrite C139_disk_pixel; [|lia|lra|now apply B; left|intros; apply B; [now left|assumption]].
    cbn [map bsum rsum dist2 length pow]. change (4 / 2)%nat with 2%nat. change (2 / 2)%nat with 1%nat. cbn [INR].
    repeat (destruct (Rlt_dec _ _) as [?L|?L]; [try (exfalso; lra)|try (exfalso; lra)]); lra.
  - rewrite C139_disk_pixel; [|lia|lra|now apply B; right|intros; apply B; [now right|assumption]].
    cbn [map bsum rsum dist2 length pow]. change (4 / 2)%nat with 2%nat. change (2 / 2)%nat with 1%nat. cbn [INR].
    repeat (destruct (Rlt_dec _ _) as [?L|?L]; [try (exfalso; lra)|try (exfalso; lra)]); lra.
Qed.
(** a marker smaller than a pixel: one sub-sample out of 25, in the middle pixel *)
Example C139_example : create_marker_disk [4; 4]%nat (1 / 5) 5 [2; 2]%nat = 1 / 25 /\ create_marker_disk [4; 4]%nat (1 / 5) 5 [1; 2]%nat = 0.
Proof.
  split; rewrite C139_disk_pixel; try lia; try lra; try (repeat constructor; lia); try (intros [|[|]] Ha; simpl in Ha |- *; try lia; left; lia);
    cbn [map bsum rsum dist2 length pow]; change (4 / 2)%nat with 2%nat; change (5 / 2)%nat with 2%nat; cbn [INR].
  - do 25 (destruct (Rlt_dec _ _) as [?L|?L]; [try (exfalso; lra)|try (exfalso; lra)]); lra.
  - do 25 (destruct (Rlt_dec _ _) as [?L|?L]; [try (exfalso; lra)|try (exfalso; lra)]); lra.
Qed.

(** ** tracking *)
(** The image shows the marker moved by t pixels (on the torus, less than half a frame): the position returned along each axis is
    n / 2 + t -- for even sizes, exactly where the pixel n // 2 of the marker went. *)
Theorem C139_tracks : forall fit eps s' n image marker t, let s := s' ++ [n] in
  Forall (fun m => (2 <= m)%nat) s -> Nat.even n = true -> 0 < eps -> (forall f, fits fit 3 (centred 3) f) ->
  length t = length s -> Forall2 (fun m b => (- Z.of_nat m <= 2 * b < Z.of_nat m)%Z) s t -> moved s t marker image -> aperiodic s marker ->
  exists pos, track_marker fit eps s' n image marker = inr pos /\ length pos = length s /\
    forall a, (a < length s)%nat -> nth a pos 0 = IZR (nth a t 0%Z) + INR (nth a s 0%nat) / 2.
Proof.
  intros fit eps s' n image marker t s H2 Ev He F Lt Sm M A. unfold track_marker, fit_shifts_vu_xc. fold s.
  rewrite (xc_ext fit true NoNorm eps 2 s' n (zpad s image) image (zpad s marker) marker) by (intros; now apply zpad_in).
  destruct (C75_finds_shift fit true NoNorm eps 2 s' n marker image t H2) as (z & E & Hz); try assumption.
  - intros _. apply Nat.even_spec in Ev as [m Em]. exists m. split; [exact Em|]. unfold s in H2. apply Forall_app in H2 as [_ H2]. inversion H2; subst. lia.
  - rewrite E. cbn [ebind]. apply signed_small in Hz; [|exact Sm]. subst z. eexists. split; [reflexivity|].
    rewrite map_length, combine_length, map_length, Lt, Nat.min_id. split; [reflexivity|]. intros a Ha.
    rewrite (nth_indep _ 0 ((fun p => fst p + INR (snd p) / 2) (0, 0%nat))) by (rewrite map_length, combine_length, map_length; lia).
    rewrite (map_nth (fun p => fst p + INR (snd p) / 2)). rewrite combine_nth by (rewrite map_length; lia). cbn [fst snd]. rewrite (map_nth IZR t 0%Z). reflexivity.
Qed.
Theorem C139_centre_even : forall fit eps s' n image marker t, let s := s' ++ [n] in
  Forall (fun m => (2 <= m)%nat) s -> Forall (fun m => Nat.even m = true) s -> 0 < eps -> (forall f, fits fit 3 (centred 3) f) ->
  length t = length s -> Forall2 (fun m b => (- Z.of_nat m <= 2 * b < Z.of_nat m)%Z) s t -> moved s t marker image -> aperiodic s marker ->
  exists pos, track_marker fit eps s' n image marker = inr pos /\
    forall a, (a < length s)%nat -> nth a pos 0 = IZR (Z.of_nat (nth a s 0 / 2)%nat + nth a t 0%Z).
Proof.
  intros fit eps s' n image marker t s H2 Ev He F Lt Sm M A. destruct (C139_tracks fit eps s' n image marker t) as (pos & E & Lp & Hp); try assumption.
  - unfold s in Ev. apply Forall_app in Ev as [_ Ev]. now inversion Ev.
  - exists pos. split; [exact E|]. intros a Ha. rewrite Hp by exact Ha. rewrite plus_IZR, <- INR_IZR_INZ.
    eapply Forall_forall in Ev; [|apply (nth_In s 0%nat Ha)]. apply Nat.even_spec in Ev as [m Em]. change (nth a (s' ++ [n]) 0%nat) with (nth a s 0%nat). rewrite Em.
    rewrite (Nat.mul_comm 2 m), Nat.div_mul by lia. rewrite mult_INR. simpl (INR 2). lra.
Qed.
(** REFUTED for odd sizes: half a pixel off. *)
Theorem C139_odd_size_refuted : exists fit eps image marker pos, (forall f, fits fit 3 (centred 3) f) /\ moved [3; 4]%nat [0; 0]%Z marker image /\
  marker = spike [1; 2]%nat /\ image [1; 2]%nat = 1 /\ track_marker fit eps [3%nat] 4 image marker = inr pos /\ nth 0 pos 0 = 3 / 2 /\ nth 1 pos 0 = 2.
Proof.
  set (fit := fun (_ : nat) (_ ys : vec) => interp3 ys).
  assert (Mv : moved [3; 4]%nat [0; 0]%Z (spike [1; 2]%nat) (spike [1; 2]%nat)).
  { intros l Il. f_equal. inversion Il as [|i1 n1 l1 s1 H1 Il1]; subst. inversion Il1 as [|i2 n2 l2 s2 H3 Il2]; subst. inversion Il2; subst. unfold tadd. cbn [zl map zadd tor]. rewrite !Z.add_0_r. now rewrite !imod_small. }
  assert (Ap : aperiodic [3; 4]%nat (spike [1; 2]%nat)).
  { intros j Ij H. specialize (H [1; 2]%nat ltac:(repeat constructor; lia)). rewrite spike_at in H.
    inversion Ij as [|i1 n1 l1 s1 H1 Il1]; subst. inversion Il1 as [|i2 n2 l2 s2 H3 Il2]; subst. inversion Il2; subst.
    unfold spike in H. destruct (list_eq_dec Nat.eq_dec _ _) as [E|_]; [|lra]. unfold tadd in E. cbn [zl map zadd tor] in E. injection E as E1 E2.
    destruct i1 as [|[|[|]]]; try lia; vm_compute in E1; try discriminate. destruct i2 as [|[|[|[|]]]]; try lia; vm_compute in E2; try discriminate. reflexivity. }
  destruct (C139_tracks fit 1 [3%nat] 4 (spike [1; 2]%nat) (spike [1; 2]%nat) [0; 0]%Z) as (pos & E & Lp & Hp); try assumption; try reflexivity; try lra.
  - repeat constructor; lia.
  - intros f. apply interp_fits.
  - repeat constructor; simpl; lia.
  - exists fit, 1, (spike [1; 2]%nat), (spike [1; 2]%nat), pos. split; [intros f; apply interp_fits|]. split; [exact Mv|]. split; [reflexivity|]. split; [apply spike_at|]. split; [exact E|].
    rewrite (Hp 0%nat), (Hp 1%nat) by (simpl; lia). simpl. lra.
Qed.
