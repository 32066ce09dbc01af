(** Theorems C76, C80, C130, C134, C135: shifts and centre of rotation. *)
From Coq Require Import Reals Lra Lia List ZArith Bool Permutation.
Import ListNotations.
From Verif Require Import OperatorsLayoutProps.
From Verif Require Import Sums Rounding PyErr Arrays Reindex ParamTuningModel ParamTuningProps ProcPreModel ProcPreProps Fourier FourierBox AlignFitModel AlignFitProps AlignXcProps AlignShiftProps AlignShiftsModel.
Open Scope R_scope.

(** * C80: implausible shifts are set to zero, the others are left alone *)
Lemma existsb_false {A} (f : A -> bool) l : existsb f l = false -> forall x, In x l -> f x = false.
Proof. intros H x Hx. destruct (f x) eqn:E; [|reflexivity]. assert (existsb f l = true) by (apply existsb_exists; now exists x). congruence. Qed.
Lemma bshape_img r w : bshape [r; w] [r; 1%nat] = Some [r; w].
Proof. unfold bshape. cbn [rev app bshape_rev]. rewrite Nat.eqb_refl. destruct (Nat.eqb_spec w 1) as [->|]; [reflexivity|]. reflexivity. Qed.
Lemma bindex_full s l : length l = length s -> (forall a, (a < length s)%nat -> (nth a l 0 < nth a s 0)%nat) -> bindex s l = l.
Proof.
  unfold bindex. intros L H. rewrite L, Nat.sub_diag. cbn [skipn]. revert l L H. induction s as [|n s IH]; intros [|i l] L H; simpl in L; try lia; [reflexivity|].
  cbn [combine map fst snd]. f_equal.
  - specialize (H 0%nat ltac:(simpl; lia)). cbn [nth] in H. destruct (Nat.eqb_spec n 1); lia.
  - apply IH; [lia|]. intros a Ha. apply (H (S a)). simpl. lia.
Qed.
(** images: the shifts have one row per coordinate and one column per image, the limits one per row *)
Theorem C80_filter_images : forall r w shifts maxs i j, (i < r)%nat -> (j < w)%nat ->
  exists y, filter_shifts [r; w] [r; 1%nat] shifts maxs = inr y /\
    (Rabs (shifts [i; j]) <= maxs [i; 0%nat] -> y [i; j] = shifts [i; j]) /\ (maxs [i; 0%nat] < Rabs (shifts [i; j]) -> y [i; j] = 0).
Proof.
  intros r w shifts maxs i j Hi Hj. unfold filter_shifts. rewrite bshape_img.
  assert (I : inb [r; w] [i; j]) by (repeat constructor; assumption).
  assert (Es : bindex [r; w] [i; j] = [i; j]) by (apply bindex_full; [reflexivity|]; intros a Ha; destruct a as [|[|a]]; simpl in *; lia).
  assert (Em : bindex [r; 1%nat] [i; j] = [i; 0%nat]).
  { unfold bindex. cbn. destruct (Nat.eqb_spec r 1); [replace i with 0%nat by lia|]; reflexivity. }
  destruct (existsb _ (idx [r; w])) eqn:E.
  - destruct (list_eq_dec Nat.eq_dec [r; w] [r; w]); [|congruence]. eexists. split; [reflexivity|]. cbv beta. rewrite Es, Em. destruct (Rlt_dec _ _); split; intros; lra.
  - exists shifts. split; [reflexivity|]. split; [reflexivity|]. intros H. exfalso.
    pose proof (existsb_false _ _ E [i; j] (proj2 (in_idx _ _) I)) as Q. cbv beta in Q. rewrite Es, Em in Q. destruct (Rlt_dec _ _); [discriminate|contradiction].
Qed.
(** lines: the limits have shape (1, 1), the shifts shape (w,): as soon as one shift exceeds the limit, instead of being set to zero
    an IndexError is raised *)
Theorem C80_filter_lines_refuted : forall w shifts maxs, (0 < w)%nat ->
  filter_shifts [w] [1; 1]%nat shifts maxs = (if existsb (fun j => if Rlt_dec (maxs [0; 0]%nat) (Rabs (shifts [j])) then true else false) (seq 0 w) then inl IndexError else inr shifts).
Proof.
  intros w shifts maxs Hw. unfold filter_shifts.
  assert (B : bshape [w] [1; 1]%nat = Some [1; w]%nat) by (unfold bshape; cbn [rev app bshape_rev]; destruct (Nat.eqb_spec w 1) as [->|]; reflexivity). rewrite B.
  assert (Ex : existsb (fun l => if Rlt_dec (maxs (bindex [1; 1]%nat l)) (Rabs (shifts (bindex [w] l))) then true else false) (idx [1; w]%nat) =
               existsb (fun j => if Rlt_dec (maxs [0; 0]%nat) (Rabs (shifts [j])) then true else false) (seq 0 w)).
  { apply eq_iff_eq_true. rewrite !existsb_exists. split.
    - intros (l & Hl & H). apply in_idx in Hl. inversion Hl as [|i n l' s' Hi Hl']; subst. inversion Hl' as [|j m l'' s'' Hj Hl'']; subst. inversion Hl''; subst.
      exists j. split; [apply in_seq; lia|]. unfold bindex in H. cbn in H. destruct (Nat.eqb_spec w 1); [replace j with 0%nat by lia|]; exact H.
    - intros (j & Hj & H). apply in_seq in Hj. exists [0; j]%nat. split; [apply in_idx; repeat constructor; lia|]. unfold bindex. cbn. destruct (Nat.eqb_spec w 1); [replace j with 0%nat in H by lia|]; exact H. }
  rewrite Ex. destruct (existsb _ (seq 0 w)); [|reflexivity]. destruct (list_eq_dec Nat.eq_dec [1; w]%nat [w]); [discriminate|reflexivity].
Qed.
Example C80_example : filter_shifts [3%nat] [1; 1]%nat (fun l => nth (nth 0 l 0%nat) [1; 20; -2] 0) (fun _ => 10) = inl IndexError.
Proof. rewrite C80_filter_lines_refuted by lia. cbn. repeat (destruct (Rlt_dec _ _); try reflexivity). all: rewrite ?Rabs_right in * by lra; lra. Qed.

(** * C76: the shifts returned for a whole scan *)
Definition argsorts (N : nat) (ang : vec) (ord : nat -> nat) : Prop :=
  (forall k, (k < N)%nat -> (ord k < N)%nat) /\ (forall j k, (j < N)%nat -> (k < N)%nat -> ord j = ord k -> j = k) /\ (forall k, (S k < N)%nat -> ang (ord k) <= ang (ord (S k))).
(** every pair of images is registered exactly: image i is found displaced by x i - x j with respect to image j *)
Definition exact_pairs (x : vec) (find : nat -> nat -> R) : Prop := forall i j, find i j = x i - x j.
Lemma cum_exact x find ord k : exact_pairs x find -> cum_shift find ord k = x (ord 0%nat) - x (ord k).
Proof. intros E. unfold cum_shift. induction k as [|k IH]; cbn [rsum]; [ring|]. rewrite IH, E. ring. Qed.
(** the correction image i should get *)
Definition right_u (dec : nat) (maxs : R) (x : vec) (sinus : R -> R) (ang : vec) (first i : nat) : R := np_around dec (filter1 maxs (x first - x i - sinus (ang i))).
Definition right_v (dec N : nat) (y : vec) (i : nat) : R := np_around dec (rsum N y / INR N - y i).
Lemma rsum_perm N (f : nat -> R) ord : (forall k, (k < N)%nat -> (ord k < N)%nat) -> (forall j k, (j < N)%nat -> (k < N)%nat -> ord j = ord k -> j = k) -> rsum N (fun k => f (ord k)) = rsum N f.
Proof.
  intros H1 H2. rewrite <- !lsum_seq. rewrite <- (lsum_map ord (seq 0 N) f). apply lsum_perm. apply NoDup_Permutation_bis.
  - apply NoDup_map_inj; [|apply seq_NoDup]. intros a b Ha Hb. apply in_seq in Ha, Hb. apply H2; lia.
  - now rewrite map_length.
  - intros a Ha. apply in_map_iff in Ha as (k & <- & Hk). apply in_seq in Hk. apply in_seq. specialize (H1 k ltac:(lia)). lia.
Qed.
Theorem C76_returned : forall dec N maxs x y find_v find_u sinus ang ord j, exact_pairs y find_v -> exact_pairs x find_u -> argsorts N ang ord -> (0 < N)%nat -> (j < N)%nat ->
  fit_vu dec N maxs find_v find_u sinus ang ord j = (right_v dec N y (ord (ord j)), right_u dec maxs x sinus ang (ord 0%nat) (ord (ord j))).
Proof.
  intros dec N maxs x y fv fu sinus ang ord j Ev Eu (O1 & O2 & O3) HN Hj. unfold fit_vu, sorted_v, sorted_u, right_v, right_u. rewrite (cum_exact x fu ord (ord j) Eu).
  f_equal. f_equal. rewrite (cum_exact y fv ord (ord j) Ev). rewrite (rsum_ext N (cum_shift fv ord) (fun k => y (ord 0%nat) - y (ord k))) by (intros; now apply cum_exact).
  rewrite rsum_minus, (rsum_perm N y ord O1 O2), rsum_const. field. apply not_0_INR. lia.
Qed.
(** right for every image whenever the argsort is its own inverse: in particular for scans acquired in increasing or decreasing order *)
Theorem C76_sorted_scans : forall dec N maxs x y find_v find_u sinus ang ord, exact_pairs y find_v -> exact_pairs x find_u -> argsorts N ang ord ->
  (forall k, (k < N)%nat -> ord (ord k) = k) -> forall j, (j < N)%nat ->
  fit_vu dec N maxs find_v find_u sinus ang ord j = (right_v dec N y j, right_u dec maxs x sinus ang (ord 0%nat) j).
Proof. intros dec N maxs x y fv fu sinus ang ord Ev Eu O I j Hj. rewrite (C76_returned dec N maxs x y fv fu sinus ang ord j Ev Eu O) by lia. now rewrite (I j Hj). Qed.
(** wrong otherwise: three images taken at angles 2, 3, 1 *)
Definition ang3 : vec := fun i => nth i [2; 3; 1] 0.
Definition ord3 (i : nat) : nat := nth i [2; 0; 1]%nat 0%nat.
Theorem C76_unsorted_refuted : exists x find, exact_pairs x find /\ argsorts 3 ang3 ord3 /\
  exists j, (j < 3)%nat /\ snd (fit_vu 0 3 100 find find (fun _ => 0) ang3 ord3 j) <> right_u 0 100 x (fun _ => 0) ang3 (ord3 0) j.
Proof.
  set (x := fun i : nat => nth i [1; 5; 2] 0). exists x, (fun i j => x i - x j).
  assert (E : exact_pairs x (fun i j => x i - x j)) by (intros i j; reflexivity).
  assert (O : argsorts 3 ang3 ord3).
  { split; [|split].
    - intros k Hk. do 3 (destruct k as [|k]; [cbn; lia|]). lia.
    - intros j k Hj Hk H. do 3 (destruct j as [|j]; [do 3 (destruct k as [|k]; [first [reflexivity|discriminate]|]); lia|]). lia.
    - intros k Hk. do 2 (destruct k as [|k]; [cbn; lra|]). lia. }
  split; [exact E|]. split; [exact O|]. exists 0%nat. split; [lia|]. rewrite (C76_returned 0 3 100 x x _ _ (fun _ => 0) ang3 ord3 0 E E O) by lia. cbn [snd].
  change (ord3 (ord3 0)) with 1%nat. change (ord3 0) with 2%nat. unfold right_u, x. cbn [nth].
  replace (2 - 5 - 0) with (IZR (-3)) by lra. replace (2 - 1 - 0) with (IZR 1) by lra. unfold filter1.
  rewrite (Rabs_left (IZR (-3))), (Rabs_right (IZR 1)) by lra. destruct (Rlt_dec 100 (- IZR (-3))); [lra|]. destruct (Rlt_dec 100 (IZR 1)); [lra|].
  rewrite !around_Z. lra.
Qed.
Example C76_example : argsorts 3 (fun i => nth i [3; 2; 1] 0) (fun i => 2 - i)%nat /\ (forall k, (k < 3)%nat -> (2 - (2 - k) = k)%nat).
Proof.
  split; [|intros; lia]. split; [|split].
  - intros; lia.
  - intros j k; lia.
  - intros k Hk. do 2 (destruct k as [|k]; [cbn; lra|]). lia.
Qed.
(** [fit_vu_accum_drifts]: with one reference image every shift is relative to it; with as many references, to its own; otherwise ValueError *)
Theorem C76_accum_drifts : forall {A} (find : A -> A -> R) imgs refs,
  (forall r, refs = [r] -> fit_vu_accum_drifts find imgs refs = inr (map (find r) imgs)) /\
  (length refs = length imgs -> length refs <> 1%nat -> exists xs, fit_vu_accum_drifts find imgs refs = inr xs /\ length xs = length imgs /\
     forall k r x, nth_error refs k = Some r -> nth_error imgs k = Some x -> nth_error xs k = Some (find r x)) /\
  (length refs <> length imgs -> length refs <> 1%nat -> fit_vu_accum_drifts find imgs refs = inl ValueError).
Proof.
  intros A find imgs refs. split; [intros r ->; reflexivity|]. split.
  - intros L N1. destruct refs as [|r [|r' refs]].
    + exists []. destruct imgs; [|simpl in L; lia]. repeat split. intros [|k]; discriminate.
    + simpl in N1; lia.
    + unfold fit_vu_accum_drifts. rewrite L, Nat.eqb_refl. eexists. split; [reflexivity|]. split; [rewrite map_length, combine_length; lia|].
      clear N1. revert imgs L. generalize (r :: r' :: refs). clear. intros refs. induction refs as [|r refs IH]; intros [|i imgs] L [|k] a x Ha Hx; simpl in *; try discriminate; try congruence. apply IH; congruence || lia.
  - intros L N1. destruct refs as [|r [|r' refs]]; simpl in N1; try lia; unfold fit_vu_accum_drifts.
    + destruct imgs; [simpl in L; lia|reflexivity].
    + destruct (Nat.eqb_spec (length (r :: r' :: refs)) (length imgs)); [contradiction|reflexivity].
Qed.

(** * C130: the centre of rotation from two opposite projections *)
(** the projection at half a turn is the mirror image about a rotation axis at t / 2 pixels from the centre of the detector (on the
    circle of n pixels) *)
Definition mirrored (n : nat) (t : Z) (img0 img180 : vec) : Prop := forall i, (i < n)%nat -> img180 i = img0 (imod n (Z.of_nat n - 1 + t - Z.of_nat i)).
Definition no_period (n : nat) (x : vec) : Prop := aperiodic [n] (fun l => x (nth 0 l 0%nat)).
Lemma find_line_exact fit use_rfft eps dec n maxs d p t : (2 <= n)%nat -> rfft_ok use_rfft n -> 0 < eps -> (forall f, fits fit 3 (centred 3) f) ->
  (forall i, (i < n)%nat -> d i = p (imod n (Z.of_nat i - t))) -> no_period n p -> INR n / 2 <= maxs ->
  exists z, signed n t z /\ find_shift_line fit use_rfft eps dec n maxs d p = inr (IZR z).
Proof.
  intros Hn Rf He F M A Hm. unfold find_shift_line, fit_shifts_vu_xc. cbn [app].
  set (P := zpad [n] (fun l => p (nth 0 l 0%nat))). set (D := zpad [n] (fun l => d (nth 0 l 0%nat))).
  destruct (C75_finds_shift fit use_rfft NoNorm eps dec [] n P D [t]) as (z & E & Hz).
  - repeat constructor. exact Hn.
  - exact Rf.
  - exact He.
  - reflexivity.
  - exact F.
  - intros l Hl. cbn [app] in *. unfold D, P. pose proof (tadd_inb [n] l (map Z.opp [t]) ltac:(constructor; [lia|constructor]) Hl eq_refl) as It.
    rewrite !zpad_in by assumption. destruct (inb1 _ _ Hl) as (i & -> & Hi). unfold tadd. cbn [zl map zadd tor nth]. rewrite (M i Hi). do 2 f_equal.
  - cbn [app] in *. intros j Hj H. apply A; [exact Hj|]. intros l Hl. pose proof (H l Hl) as E. unfold P in E. rewrite !zpad_in in E; [exact E|exact Hl|].
    apply tadd_inb; [constructor; [lia|constructor]|exact Hl|]. rewrite zl_length. now apply inb_length.
  - rewrite E. destruct z as [|z0 [|]]; cbn [app signed_all] in Hz; try tauto. destruct Hz as [Hz _]. exists z0. split; [exact Hz|]. cbn [map nth].
    rewrite C80_filter_lines_refuted by lia. cbn [seq existsb]. destruct Hz as [_ Hz].
    destruct (Rlt_dec maxs (Rabs (IZR z0))) as [G|G]; [|reflexivity]. exfalso. apply (Rlt_not_le _ _ G). eapply Rle_trans; [|exact Hm].
    rewrite INR_IZR_INZ. apply Rabs_le. assert (- IZR (Z.of_nat n) <= 2 * IZR z0 <= IZR (Z.of_nat n)); [|lra].
    rewrite <- opp_IZR, <- mult_IZR. split; apply IZR_le; lia.
Qed.
Lemma flip_mirrored n t img0 img180 i : (0 < n)%nat -> mirrored n t img0 img180 -> (i < n)%nat ->
  flip n img180 i = img0 (imod n (Z.of_nat i + t)).
Proof. intros Hn M Hi. unfold flip. rewrite M by lia. do 2 f_equal. lia. Qed.
Lemma flipped_moved n t img0 img180 : (0 < n)%nat -> mirrored n t img0 img180 -> forall i, (i < n)%nat -> img0 i = flip n img180 (imod n (Z.of_nat i - t)).
Proof.
  intros Hn M i Hi. rewrite (flip_mirrored n t img0 img180 _ Hn M) by (apply imod_lt; exact Hn). f_equal.
  symmetry. apply imod_exact; [exact Hi|]. rewrite imod_of by exact Hn. rewrite Zplus_mod_idemp_l. replace (Z.of_nat i - t + t)%Z with (Z.of_nat i) by lia. apply Z.mod_small. lia.
Qed.
Lemma flipped_aperiodic n t img0 img180 : (0 < n)%nat -> mirrored n t img0 img180 -> no_period n img0 -> no_period n (flip n img180).
Proof.
  intros Hn M A j Hj H. apply A; [exact Hj|]. intros l Hl. destruct (inb1 _ _ Hj) as (jj & -> & Hjj). destruct (inb1 _ _ Hl) as (i & -> & Hi).
  unfold tadd. cbn [zl map zadd tor nth]. rewrite (flipped_moved n t img0 img180 Hn M i Hi), (flipped_moved n t img0 img180 Hn M (imod n (Z.of_nat i + Z.of_nat jj))) by (apply imod_lt; exact Hn).
  specialize (H [imod n (Z.of_nat i - t)] ltac:(constructor; [apply imod_lt; exact Hn|constructor])). unfold tadd in H. cbn [zl map zadd tor nth] in H. rewrite <- H. f_equal.
  apply imod_mod; [exact Hn|]. rewrite !imod_of by exact Hn. rewrite Zplus_mod_idemp_l, Zminus_mod_idemp_l. f_equal. lia.
Qed.
Definition halfturn (n : nat) (t : Z) (angles : list R) (data : nat -> vec) (i j : nat) : Prop := nth j angles 0 = nth i angles 0 + PI /\ mirrored n t (data i) (data j).
Lemma closest_exact angles a j : (j < length angles)%nat -> nth j angles 0 = a -> (forall i, (i < length angles)%nat -> nth i angles 0 = a -> i = j) -> closest angles a = j.
Proof.
  intros Hj E U. unfold closest. set (l := map (fun x => Rabs (x - a)) angles). assert (Ll : length l = length angles) by (unfold l; apply map_length).
  destruct (argmin_spec l) as [B H]; [intros E0; rewrite E0 in Ll; simpl in Ll; lia|]. rewrite Ll in *. apply U; [exact B|].
  assert (N : forall i, (i < length angles)%nat -> nth i l 0 = Rabs (nth i angles 0 - a)).
  { intros i Hi. unfold l. rewrite (nth_indep _ 0 (Rabs (0 - a))) by (rewrite map_length; exact Hi). apply (map_nth (fun x => Rabs (x - a))). }
  specialize (H j Hj). rewrite !N in H by assumption. rewrite E, (Rminus_diag_eq a a eq_refl), Rabs_R0 in H. pose proof (Rabs_pos (nth (argmin l) angles 0 - a)).
  destruct (Req_EM_T (nth (argmin l) angles 0 - a) 0); [lra|]. exfalso. apply (Rabs_no_R0 _ n). lra.
Qed.
(** for every detector of even width, every scan that contains the smallest angle once and its opposite once, and every projection
    without translational symmetry: minus the offset of the rotation axis *)
Theorem C130_centre_of_rotation : forall fit eps dec n angles data i0 i180 t, (2 <= n)%nat -> (exists m, n = 2 * m)%nat -> 0 < eps -> (forall f, fits fit 3 (centred 3) f) ->
  (i0 < length angles)%nat -> (i180 < length angles)%nat -> (forall i, (i < length angles)%nat -> i <> i0 -> nth i0 angles 0 < nth i angles 0) ->
  halfturn n t angles data i0 i180 -> (forall i, (i < length angles)%nat -> nth i angles 0 = nth i180 angles 0 -> i = i180) -> no_period n (data i0) ->
  exists z, signed n t z /\ fit_u_180 fit eps dec n (INR n / 2) angles data = inr (- IZR z / 2).
Proof.
  intros fit eps dec n angles data i0 i180 t Hn (m & Em) He F H0 H180 Min (Ha & M) U A.
  assert (Lne : angles <> []) by (intros ->; simpl in H0; lia).
  assert (E0 : min_angle angles = nth i0 angles 0).
  { unfold min_angle. destruct (argmin_spec angles Lne) as [B Hm]. destruct (Nat.eq_dec (argmin angles) i0) as [->|Ne]; [reflexivity|]. specialize (Min _ B Ne). specialize (Hm i0 H0). lra. }
  unfold fit_u_180. rewrite E0. rewrite (closest_exact angles (nth i0 angles 0) i0 H0 eq_refl).
  2:{ intros i Hi E. destruct (Nat.eq_dec i i0) as [->|Ne]; [reflexivity|]. specialize (Min i Hi Ne). lra. }
  rewrite (closest_exact angles (nth i0 angles 0 + PI) i180 H180 Ha) by (intros i Hi E; apply U; [exact Hi|lra]).
  destruct (find_line_exact fit true eps dec n (INR n / 2) (data i0) (flip n (data i180)) t) as (z & Hz & E).
  - exact Hn.
  - intros _. exists m. split; [exact Em|lia].
  - exact He.
  - exact F.
  - apply flipped_moved; [lia|exact M].
  - apply (flipped_aperiodic n t (data i0)); [lia|exact M|exact A].
  - lra.
  - exists z. split; [exact Hz|]. now rewrite E.
Qed.
(** a detector of odd width: the sign of the offset is wrong *)
Definition im0 : vec := fun i => nth i [0; 0; 1] 0.
Definition im180 : vec := fun i => nth i [0; 0; 1] 0.
Theorem C130_odd_width_refuted : exists fit, (forall f, fits fit 3 (centred 3) f) /\ mirrored 3 (-1) im0 im180 /\ no_period 3 im0 /\
  fit_u_180 fit 1 2 3 (3 / 2) [0; PI] (fun w => if Nat.eqb w 0 then im0 else im180) = inr (- (1) / 2).
Proof.
  destruct C75_odd_rfft_refuted as (fit0 & p0 & d0 & _). clear fit0 p0 d0.
  exists (fun _ _ ys => interp3 ys). split; [exact interp_fits|]. split; [|split].
  - intros i Hi. do 3 (destruct i as [|i]; [reflexivity|]). lia.
  - intros j Hj H. inb1 Hj i. specialize (H [2%nat] ltac:(repeat constructor)). unfold tadd in H. cbn [zl map zadd tor nth] in H. unfold im0 in H.
    do 3 (destruct i as [|i]; [try reflexivity; exfalso; vm_compute imod in H; cbn [nth] in H; lra|]). lia.
  - unfold fit_u_180.
    assert (E0 : min_angle [0; PI] = 0). { unfold min_angle, argmin. cbn [argmin_from]. pose proof PI_RGT_0. destruct (Rlt_dec PI 0); [lra|reflexivity]. }
    rewrite E0. pose proof PI_RGT_0 as HP.
    rewrite (closest_exact [0; PI] 0 0) by (try reflexivity; simpl; try lia; intros [|[|i]] Hi E; simpl in *; try lia; lra).
    rewrite (closest_exact [0; PI] (0 + PI) 1) by (simpl; try lia; try lra; intros [|[|i]] Hi E; simpl in *; try lia; lra).
    cbn [Nat.eqb]. unfold find_shift_line, fit_shifts_vu_xc. cbn [app].
    match goal with |- context [fit_shifts_xc ?a ?b ?c ?d ?e ?s ?n ?D ?P] => assert (ED : fit_shifts_xc a b c d e s n D P = inr [1]) end.
    { transitivity (fit_shifts_vu_xc (fun _ _ ys => interp3 ys) false true NoNorm 1 2 [] 3 spike2 spike0); [|].
      - unfold fit_shifts_vu_xc. cbn [app]. apply xc_ext; intros l Hl; unfold zpad; destruct (in_box [3%nat] l); try reflexivity; inb1 Hl i; unfold im0, im180, flip, spike0, spike2, line; do 3 (destruct i as [|i]; [reflexivity|]); lia.
      - exact odd_rfft_value. }
    rewrite ED. rewrite C80_filter_lines_refuted by lia. cbn [seq existsb nth]. rewrite (Rabs_right 1) by lra. destruct (Rlt_dec (3 / 2) 1); [lra|]. reflexivity.
Qed.

(** * C134: the centre of rotation from a full turn *)
(** a full turn of 2 m equally useful projections in increasing order: projection i + m is opposite to projection i *)
Definition full_turn (m : nat) (angles : list R) : Prop := length angles = (2 * m)%nat /\ (forall i j, (i < j < 2 * m)%nat -> nth i angles 0 < nth j angles 0) /\
  (forall i, (i < m)%nat -> nth (m + i) angles 0 = nth i angles 0 + PI).
Lemma filter_length_prefix {A} (f : A -> bool) l k : (k <= length l)%nat -> (forall i a, nth_error l i = Some a -> f a = Nat.ltb i k) -> length (filter f l) = k.
Proof.
  revert k. induction l as [|a l IH]; intros k Hk H; simpl in *; [lia|]. pose proof (H 0%nat a eq_refl) as H0. rewrite H0. destruct k as [|k].
  - cbn [Nat.ltb Nat.leb length]. apply IH; [lia|]. intros i b E. apply (H (S i) b E).
  - cbn [Nat.ltb Nat.leb length]. f_equal. apply IH; [lia|]. intros i b E. apply (H (S i) b E).
Qed.
Theorem C134_pairs_are_opposite : forall m angles, (0 < m)%nat -> full_turn m angles -> pairs_360 angles = map (fun i => (i, m + i)%nat) (seq 0 m).
Proof.
  intros m angles Hm (L & Inc & Opp). assert (Nh : num_half angles = m).
  { unfold num_half. apply filter_length_prefix; [lia|]. intros i a E. assert (Hi : (i < length angles)%nat) by (apply nth_error_Some; congruence).
    apply (nth_error_nth _ _ 0) in E. rewrite <- (Opp 0%nat Hm), Nat.add_0_r, <- E. destruct (Nat.ltb_spec i m).
    - pose proof (Inc i m ltac:(lia)). destruct (Rlt_dec _ _); [reflexivity|contradiction].
    - destruct (Rlt_dec _ _) as [G|G]; [|reflexivity]. exfalso. destruct (Nat.eq_dec i m) as [->|N]; [lra|]. pose proof (Inc m i ltac:(lia)). lra. }
  unfold pairs_360. rewrite Nh. apply map_ext_in. intros i Hi. apply in_seq in Hi. f_equal. apply closest_exact; [lia|apply Opp; lia|].
  intros k Hk E. rewrite <- (Opp i ltac:(lia)) in E. destruct (lt_eq_lt_dec k (m + i)) as [[Q|Q]|Q]; [|exact Q|].
  - pose proof (Inc k (m + i)%nat ltac:(lia)). lra.
  - pose proof (Inc (m + i)%nat k ltac:(lia)). lra.
Qed.
Lemma cors_all find l z : (forall i j, In (i, j) l -> find i j = inr z) -> cors_360 find l = inr (map (fun _ => - z / 2) l).
Proof.
  induction l as [|[i j] l IH]; intros H; [reflexivity|]. cbn [cors_360 map]. rewrite (H i j (or_introl eq_refl)), IH; [reflexivity|]. intros a b K. apply H. now right.
Qed.
Lemma signed_inj n t z z' : (0 < n)%nat -> signed n t z -> signed n t z' -> z = z'.
Proof.
  intros Hn [A B] [A' B']. rewrite <- A' in A. pose proof (Z.div_mod z (Z.of_nat n) ltac:(lia)). pose proof (Z.div_mod z' (Z.of_nat n) ltac:(lia)). rewrite A in H.
  set (N := Z.of_nat n) in *. assert (z - z' = N * (z / N - z' / N))%Z by nia. assert (z / N - z' / N = 0)%Z by nia. nia.
Qed.
Theorem C134_full_turn : forall fit eps dec n m angles data t z, (2 <= n)%nat -> (exists k, n = 2 * k)%nat -> 0 < eps -> (forall f, fits fit 3 (centred 3) f) ->
  (0 < m)%nat -> full_turn m angles -> (forall i, (i < m)%nat -> mirrored n t (data i) (data (m + i)%nat) /\ no_period n (data i)) -> signed n t z ->
  fit_u_360 fit eps dec n (INR n / 2) angles data = inr (np_around dec (- IZR z / 2)).
Proof.
  intros fit eps dec n m angles data t z Hn (k & Ek) He F Hm Ft H Hz. unfold fit_u_360. rewrite (C134_pairs_are_opposite m angles Hm Ft).
  rewrite (cors_all _ _ (IZR z)).
  - f_equal. f_equal. rewrite !map_length, seq_length. rewrite (rsum_ext m _ (fun _ => - IZR z / 2)).
    + rewrite rsum_const. field. apply not_0_INR. lia.
    + intros i Hi. rewrite map_map. rewrite (nth_indep _ 0 (- IZR z / 2)) by (rewrite map_length, seq_length; exact Hi). apply (map_nth (fun _ => - IZR z / 2) (seq 0 m) 0%nat).
  - intros i j Hij. apply in_map_iff in Hij as (i' & E & Hi'). injection E as <- <-. apply in_seq in Hi'. destruct (H i' ltac:(lia)) as [M A].
    destruct (find_line_exact fit true eps dec n (INR n / 2) (data i') (flip n (data (m + i')%nat)) t) as (z' & Hz' & E).
    + exact Hn.
    + intros _. exists k. split; [exact Ek|lia].
    + exact He.
    + exact F.
    + apply flipped_moved; [lia|exact M].
    + apply (flipped_aperiodic n t (data i')); [lia|exact M|exact A].
    + lra.
    + rewrite E. do 2 f_equal. apply (signed_inj n t); [lia|exact Hz'|exact Hz].
Qed.
(** the same scan acquired in decreasing order: the first projection is paired with itself *)
Theorem C134_descending_refuted : In (0%nat, 0%nat) (pairs_360 [3 * (PI / 2); PI; PI / 2; 0]).
Proof.
  pose proof PI_RGT_0 as HP. unfold pairs_360, num_half. cbn [nth filter]. repeat (destruct (Rlt_dec _ _); [|lra]). cbn [length seq map]. left. f_equal.
  unfold closest, argmin. cbn [map argmin_from nth]. rewrite !(Rabs_left1 (_ - _)) by lra. repeat (destruct (Rlt_dec _ _); [lra|]). reflexivity.
Qed.
Example C134_example : full_turn 1 [0; PI].
Proof. split; [reflexivity|]. split; [intros i j Hij; assert (i = 0 /\ j = 1)%nat by lia; destruct H as [-> ->]; simpl; apply PI_RGT_0|]. intros i Hi. assert (i = 0)%nat by lia. subst. simpl. ring. Qed.

(** * C135: horizontal shifts from centres of mass *)
(** displacing a line by t pixels inside the frame moves minus its centre of mass by -t *)
Definition line_displaced (n : nat) (t : Z) (p d : vec) : Prop := displaced [n] [t] (fun l => p (nth 0 l 0%nat)) (fun l => d (nth 0 l 0%nat)).
Lemma moved_sum n t p d (g : Z -> R) : line_displaced n t p d -> rsum n (fun u => d u * g (Z.of_nat u)) = rsum n (fun i => p i * g (Z.of_nat i + t)%Z).
Proof.
  intros (H1 & H2 & H3).
  assert (D : forall u, (u < n)%nat -> d u = rsum n (fun i => if Z.eqb (Z.of_nat u) (Z.of_nat i + t) then p i else 0)).
  { intros u Hu. assert (Iu : inb [n] [u]) by (constructor; [exact Hu|constructor]). destruct (Z_le_dec 0 (Z.of_nat u - t)) as [L|L]; [destruct (Z_lt_dec (Z.of_nat u - t) (Z.of_nat n)) as [L'|L']|].
    - set (i := Z.to_nat (Z.of_nat u - t)). assert (Hi : (i < n)%nat) by (unfold i; lia). assert (Ii : inb [n] [i]) by (constructor; [exact Hi|constructor]).
      pose proof (H2 [i] [u] Ii Iu) as E. unfold translate in E. cbn [zl map zadd nth] in E. rewrite E by (f_equal; unfold i; lia).
      rewrite (rsum_single n _ i Hi); [|intros j Hj Ne; destruct (Z.eqb_spec (Z.of_nat u) (Z.of_nat j + t)); [exfalso; apply Ne; unfold i; lia|reflexivity]].
      destruct (Z.eqb_spec (Z.of_nat u) (Z.of_nat i + t)); [reflexivity|]. unfold i in *. lia.
    - rewrite (rsum_ext n _ (fun _ => 0)) by (intros i Hi; destruct (Z.eqb_spec (Z.of_nat u) (Z.of_nat i + t)); [lia|reflexivity]). rewrite rsum_0.
      apply (H3 [u] Iu). intros l Hl E. inb1 Hl i. unfold translate in E. cbn [zl map zadd] in E. injection E as E. lia.
    - rewrite (rsum_ext n _ (fun _ => 0)) by (intros i Hi; destruct (Z.eqb_spec (Z.of_nat u) (Z.of_nat i + t)); [lia|reflexivity]). rewrite rsum_0.
      apply (H3 [u] Iu). intros l Hl E. inb1 Hl i. unfold translate in E. cbn [zl map zadd] in E. injection E as E. lia. }
  rewrite (rsum_ext n _ (fun u => rsum n (fun i => if Z.eqb (Z.of_nat u) (Z.of_nat i + t) then p i * g (Z.of_nat i + t)%Z else 0))).
  - rewrite rsum_swap. apply rsum_ext. intros i Hi. destruct (Req_EM_T (p i) 0) as [Z0|N].
    + rewrite Z0, Rmult_0_l. rewrite (rsum_ext n _ (fun _ => 0)) by (intros u Hu; destruct (Z.eqb _ _); lra). apply rsum_0.
    + assert (Ii : inb [n] [i]) by (constructor; [exact Hi|constructor]). pose proof (H1 [i] Ii N) as Q. unfold translate in Q. cbn [zl map zadd] in Q. inversion Q as [|? ? ? ? B _]; subst.
      rewrite (rsum_single n _ (Z.to_nat (Z.of_nat i + t)) ltac:(lia)); [|intros u Hu Ne; destruct (Z.eqb_spec (Z.of_nat u) (Z.of_nat i + t)); [exfalso; apply Ne; lia|reflexivity]].
      destruct (Z.eqb_spec (Z.of_nat (Z.to_nat (Z.of_nat i + t))) (Z.of_nat i + t)); [reflexivity|lia].
  - intros u Hu. rewrite (D u Hu), Rmult_comm, <- rsum_scal. apply rsum_ext. intros i Hi. destruct (Z.eqb_spec (Z.of_nat u) (Z.of_nat i + t)) as [->|]; ring.
Qed.
Theorem C135_centre_of_mass : forall n t p d, line_displaced n t p d -> rsum n p <> 0 -> com n d = com n p - IZR t.
Proof.
  intros n t p d D S. unfold com.
  assert (E1 : rsum n d = rsum n p) by (rewrite (rsum_ext n d (fun u => d u * 1)) by (intros; ring); rewrite (moved_sum n t p d (fun _ => 1) D); apply rsum_ext; intros; ring).
  assert (E2 : rsum n (fun u => d u * centred n u) = rsum n (fun u => p u * centred n u) + IZR t * rsum n p).
  { rewrite (rsum_ext n _ (fun u => d u * (IZR (Z.of_nat u) - (INR n - 1) / 2))) by (intros; unfold centred; now rewrite INR_IZR_INZ).
    rewrite (moved_sum n t p d (fun z => IZR z - (INR n - 1) / 2) D). rewrite <- (rsum_scal n (IZR t) p), <- rsum_plus. apply rsum_ext. intros i Hi. unfold centred. rewrite plus_IZR, (INR_IZR_INZ i). ring. }
  rewrite E1, E2. field. exact S.
Qed.
(** a scan whose ideal centres of mass follow the fitted sinusoid and whose lines jump by t_w pixels: exactly the corrections -t_w are
    returned (those above the limit are dropped) *)
Theorem C135_jitter : forall dec n maxs d sinus bias ang p (t : nat -> Z) w, line_displaced n (t w) (p w) (d w) -> rsum n (p w) <> 0 -> com n (p w) = sinus (ang w) ->
  fst (fit_u dec n maxs d sinus bias ang) w = if Rle_dec (Rabs (IZR (t w))) maxs then - IZR (t w) else 0.
Proof.
  intros dec n maxs d sinus bias ang p t w D S C. unfold fit_u. cbn [fst]. rewrite (C135_centre_of_mass n (t w) (p w) (d w) D S), C.
  replace (sinus (ang w) - IZR (t w) - sinus (ang w)) with (IZR (- t w)) by (rewrite opp_IZR; ring). unfold filter1. rewrite opp_IZR, Rabs_Ropp.
  destruct (Rlt_dec maxs (Rabs (IZR (t w)))); destruct (Rle_dec (Rabs (IZR (t w))) maxs); try lra; [apply around_0|]. rewrite <- opp_IZR. apply around_Z.
Qed.
Example C135_example : line_displaced 4 2 (fun i => nth i [3; 5; 0; 0] 0) (fun i => nth i [0; 0; 3; 5] 0) /\ rsum 4 (fun i => nth i [3; 5; 0; 0] 0) <> 0.
Proof. split; [exact (proj1 C75_example)|]. cbn. lra. Qed.
