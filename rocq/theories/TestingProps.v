(** C169-C176: testing.py. *)
From Coq Require Import Reals List ZArith String Lra Lia Psatz FunctionalExtensionality.
From Verif Require Import PyErr Sums Rounding SolversModel ProcPreModel PhysicsModel ConeBeamModel TestingModel.
Import ListNotations.
Open Scope R_scope.

Lemma rlt_spec a b : rlt a b = true <-> a < b.
Proof. unfold rlt. destruct (Rlt_dec a b); split; intros; try reflexivity; try lra; discriminate. Qed.
Lemma rlt_false a b : rlt a b = false <-> b <= a.
Proof. unfold rlt. destruct (Rlt_dec a b); split; intros; try reflexivity; try lra; discriminate. Qed.
Lemma any_neg_spec n x : any_neg n x = true <-> exists i, (i < n)%nat /\ x i < 0.
Proof.
  induction n as [|n IH]; cbn [any_neg]; [split; [discriminate|intros (i & Hi & _); lia]|]. rewrite Bool.orb_true_iff, rlt_spec, IH. split.
  - intros [H|(i & Hi & H)]; [exists n; split; [lia|exact H]|exists i; split; [lia|exact H]].
  - intros (i & Hi & H). destruct (Nat.eq_dec i n) as [->|]; [left; exact H|right; exists i; split; [lia|exact H]].
Qed.

(** * C169: add_noise *)
(** the background actually added to pixel [i], and the spread used *)
Definition spread (avg : R) (std : option R) : R := match std with Some s => s | None => avg / 20 end.
Definition added (normal_bg : R -> R -> vec) (k : R) (avg std : option R) (i : nat) : R :=
  match avg with None => 0 | Some a => k * Rabs (normal_bg a (spread a std) i) end.
Lemma spread_eq a std : (match std with None => a * (5 / 100) | Some s => s end) = spread a std.
Proof. unfold spread. destruct std; [reflexivity|field]. Qed.

Lemma an_eq n nb po ro img ph pois rd avg std eff : add_noise n nb po ro img ph pois rd avg std eff DtFloat =
  let w := fun i => ph * eff * img i + added nb (ph * eff) avg std i in
  if (match avg with Some a => rlt (spread a std) 0 | None => false end) then inl ValueError else
  if (pois && any_neg n w)%bool then inl ValueError else
  if (match rd with Some s => rlt s 0 | None => false end) then inl ValueError else
  inr (fun i => (if pois then po w i else w i) + match rd with Some s => ro s i | None => 0 end, fun i => ph * eff * img i, rsum n (added nb (ph * eff) avg std) / INR n).
Proof.
  assert (F : forall (w : vec) (pois : bool), (if pois then if any_neg n w then inl ValueError else inr (po w, DtFloat) else inr (w, DtFloat)) =
    if (pois && any_neg n w)%bool then @inl py_err (vec * np_dtype)%type ValueError else inr (if pois then po w else w, DtFloat)) by (intros w [|]; [destruct (any_neg n w)|]; reflexivity).
  assert (G : forall (u : vec) (pois : bool) (w c : vec) (b : R), match rd with None => inr (if pois then po w else w, c, b) | Some s => if rlt s 0 then @inl py_err (vec * vec * R)%type ValueError else inr (fun i => (if pois then po w else w) i + ro s i, c, b) end =
    if (match rd with Some s => rlt s 0 | None => false end) then @inl py_err (vec * vec * R)%type ValueError else inr (fun i => (if pois then po w i else w i) + match rd with Some s => ro s i | None => 0 end, c, b)).
  { intros u [|] w c b; destruct rd as [s|]; try (destruct (rlt s 0); reflexivity); repeat f_equal; apply functional_extensionality; intros i; ring. }
  cbv zeta. set (w := fun i => ph * eff * img i + added nb (ph * eff) avg std i).
  assert (E : add_noise n nb po ro img ph pois rd avg std eff DtFloat = if (match avg with Some a => rlt (spread a std) 0 | None => false end) then inl ValueError else
    match (if pois then if any_neg n w then inl ValueError else inr (po w, DtFloat) else inr (w, DtFloat)) with
    | inl e => inl e
    | inr (noise2, d2) => match rd with None => inr (noise2, fun i => ph * eff * img i, rsum n (added nb (ph * eff) avg std) / INR n)
        | Some s => if rlt s 0 then inl ValueError else match d2 with DtInt => inl TypeError | DtFloat => inr (fun i => noise2 i + ro s i, fun i => ph * eff * img i, rsum n (added nb (ph * eff) avg std) / INR n) end end
    end).
  { unfold add_noise. cbn [astype]. cbv zeta.
    assert (B : rsum n (fun i => w i - ph * eff * img i) = rsum n (added nb (ph * eff) avg std)) by (apply rsum_ext; intros i _; unfold w; ring).
    destruct avg as [a|].
    - rewrite spread_eq. destruct (rlt (spread a std) 0); [reflexivity|]. rewrite <- B. reflexivity.
    - rewrite <- B. assert (W : w = fun i => ph * eff * img i) by (apply functional_extensionality; intros i; unfold w, added; ring). rewrite W. reflexivity. }
  rewrite E, F. destruct (match avg with Some a => rlt (spread a std) 0 | None => false end); [reflexivity|]. destruct (pois && any_neg n w)%bool; [reflexivity|]. apply (G w).
Qed.
(** what is returned: the scaled image, the mean of what was added, and the image with background, Poisson statistics and read-out noise *)
Theorem C169_result : forall n normal_bg poisson normal_ro img photons po ro avg std eff noise clean bg,
  add_noise n normal_bg poisson normal_ro img photons po ro avg std eff DtFloat = inr (noise, clean, bg) ->
  (forall i, clean i = photons * eff * img i) /\ bg = rsum n (added normal_bg (photons * eff) avg std) / INR n /\
  forall i, noise i = (if po then poisson (fun k => clean k + added normal_bg (photons * eff) avg std k) i else clean i + added normal_bg (photons * eff) avg std i)
    + match ro with Some s => normal_ro s i | None => 0 end.
Proof.
  intros n nb po ro img ph pois rd avg std eff noise clean bg H. rewrite an_eq in H. cbv zeta in H.
  destruct (match avg with Some a => rlt (spread a std) 0 | None => false end); [discriminate|]. destruct (pois && _)%bool; [discriminate|].
  destruct (match rd with Some s => rlt s 0 | None => false end); [discriminate|]. injection H as <- <- <-. auto.
Qed.
(** when it raises (floating-point data types) *)
Theorem C169_raises_iff : forall n normal_bg poisson normal_ro img photons po ro avg std eff,
  (exists e, add_noise n normal_bg poisson normal_ro img photons po ro avg std eff DtFloat = inl e) <->
  ((exists a, avg = Some a /\ spread a std < 0) \/
   (po = true /\ exists i, (i < n)%nat /\ photons * eff * img i + added normal_bg (photons * eff) avg std i < 0) \/
   (exists s, ro = Some s /\ s < 0)).
Proof.
  intros n nb po ro img ph pois rd avg std eff. rewrite an_eq. cbv zeta. set (w := fun i => ph * eff * img i + added nb (ph * eff) avg std i).
  assert (A : (match avg with Some a => rlt (spread a std) 0 | None => false end) = true <-> exists a, avg = Some a /\ spread a std < 0).
  { destruct avg as [a|]; [|split; [discriminate|intros (a & [=] & _)]]. rewrite rlt_spec. split; [exists a; auto|intros (a' & [= <-] & H); exact H]. }
  assert (B : (pois && any_neg n w)%bool = true <-> pois = true /\ exists i, (i < n)%nat /\ w i < 0) by (rewrite Bool.andb_true_iff, any_neg_spec; tauto).
  assert (C : (match rd with Some s => rlt s 0 | None => false end) = true <-> exists s, rd = Some s /\ s < 0).
  { destruct rd as [s|]; [|split; [discriminate|intros (a & [=] & _)]]. rewrite rlt_spec. split; [exists s; auto|intros (a' & [= <-] & H); exact H]. }
  change (exists i, (i < n)%nat /\ ph * eff * img i + added nb (ph * eff) avg std i < 0) with (exists i, (i < n)%nat /\ w i < 0).
  rewrite <- A, <- B, <- C.
  destruct (match avg with Some a => rlt (spread a std) 0 | None => false end); [split; [auto|eexists; reflexivity]|].
  destruct (pois && any_neg n w)%bool; [split; [auto|eexists; reflexivity]|].
  destruct (match rd with Some s => rlt s 0 | None => false end); [split; [auto|eexists; reflexivity]|].
  split; [intros (e & H); discriminate|intros [H|[H|H]]; discriminate].
Qed.
(** no option: the scaled image itself and no background, whatever [background_std] *)
Theorem C169_noise_free : forall n normal_bg poisson normal_ro img photons std eff,
  add_noise n normal_bg poisson normal_ro img photons false None None std eff DtFloat = inr (fun i => photons * eff * img i, fun i => photons * eff * img i, 0).
Proof.
  intros. unfold add_noise. cbn [astype]. f_equal. f_equal. rewrite rsum_zero by (intros; ring). unfold Rdiv. ring.
Qed.
(** the background only adds counts and is reported as their mean: non-negative, at most the largest added amount; exact when there is no spread *)
Theorem C169_background : forall n normal_bg poisson normal_ro img photons a std eff noise clean bg, 0 <= photons * eff ->
  add_noise n normal_bg poisson normal_ro img photons false None (Some a) std eff DtFloat = inr (noise, clean, bg) ->
  (forall i, clean i <= noise i) /\ 0 <= bg /\ INR n * bg = rsum n (fun i => noise i - clean i) /\
  ((0 < n)%nat -> (forall i, (i < n)%nat -> normal_bg a (spread a std) i = a) -> bg = photons * eff * Rabs a).
Proof.
  intros n nb po ro img ph a std eff noise clean bg Hk H. destruct (C169_result _ _ _ _ _ _ _ _ _ _ _ _ _ _ H) as (H1 & H2 & H3). cbv match beta in H3. unfold added in H2, H3.
  assert (P : forall i, 0 <= ph * eff * Rabs (nb a (spread a std) i)) by (intros i; apply Rmult_le_pos; [exact Hk|apply Rabs_pos]).
  assert (B : 0 <= rsum n (fun i => ph * eff * Rabs (nb a (spread a std) i))) by (apply rsum_nonneg; intros; apply P).
  split; [intros i; rewrite H3; specialize (P i); lra|].
  destruct (Nat.eq_dec n 0) as [->|Hn].
  { cbn [rsum] in H2. unfold Rdiv in H2. rewrite Rmult_0_l in H2. subst bg. cbn [rsum INR]. split; [lra|]. split; [ring|intros; lia]. }
  assert (N0 : 0 < INR n) by (apply lt_0_INR; lia).
  split; [rewrite H2; apply Rdiv_le_0_compat; assumption|]. split.
  - rewrite H2. replace (rsum n (fun i => noise i - clean i)) with (rsum n (fun i => ph * eff * Rabs (nb a (spread a std) i))) by (apply rsum_ext; intros i _; rewrite H3; ring). field. lra.
  - intros _ Hs. rewrite H2, (rsum_ext n _ (fun _ => ph * eff * Rabs a)) by (intros i Hi; rewrite (Hs i Hi); reflexivity). rewrite rsum_const. field. lra.
Qed.
(** a negative average without explicit spread always raises: the default spread is negative *)
Theorem C169_negative_average_refuted : forall n normal_bg poisson normal_ro img photons po ro a eff d, a < 0 ->
  add_noise n normal_bg poisson normal_ro img photons po ro (Some a) None eff d = inl ValueError.
Proof. intros. unfold add_noise. replace (rlt (a * (5 / 100)) 0) with true by (symmetry; apply rlt_spec; lra). reflexivity. Qed.
(** integer data types: Poisson noise followed by read-out noise always raises *)
Theorem C169_integer_dtype_refuted : forall n normal_bg poisson normal_ro img photons s avg std eff, 0 <= s ->
  exists e, add_noise n normal_bg poisson normal_ro img photons true (Some s) avg std eff DtInt = inl e.
Proof.
  intros. unfold add_noise. match goal with |- context [match ?w with inl _ => _ | inr _ => _ end] => destruct w as [e|w0]; [eexists; reflexivity|] end.
  destruct (any_neg n _); [eexists; reflexivity|]. destruct (rlt s 0); eexists; reflexivity.
Qed.
Example C169_example : add_noise 2 (fun a _ _ => a) (fun x => x) (fun _ _ => 0) (fun i => INR i) 100 true (Some 1) (Some 1) None (1 / 2) DtFloat = 
  inr (fun i => 100 * (1 / 2) * INR i + 100 * (1 / 2) * Rabs 1 + 0, fun i => 100 * (1 / 2) * INR i, rsum 2 (fun i => 100 * (1 / 2) * INR i + 100 * (1 / 2) * Rabs 1 - 100 * (1 / 2) * INR i) / INR 2).
Proof.
  unfold add_noise. cbn [astype]. replace (rlt (1 * (5 / 100)) 0) with false by (symmetry; apply rlt_false; lra).
  replace (any_neg 2 _) with false. { replace (rlt 1 0) with false by (symmetry; apply rlt_false; lra). reflexivity. }
  symmetry. cbn [any_neg]. rewrite Rabs_R1. cbn. rewrite !Bool.orb_false_iff. repeat split; apply rlt_false; lra.
Qed.

(** * C170: create_sino *)
Definition linear (f : vec -> vec) : Prop := (forall c x, f (fun j => c * x j) = fun i => c * f x i) /\ forall x y, f (fun j => x j + y j) = fun i => f x i + f y i.
(** the noise-free sinogram is the projection of the returned volume, and the background is 0 *)
Theorem C170_consistent : forall n nb po ro psf_t (plain : list R -> option psf_t -> vec -> vec) xrf ph na s e dwell flux dets ain aout psf std,
  (forall a, linear (plain a None)) -> (forall a i o d p, linear (xrf a i o d p)) ->
  exists sino angles vol, create_sino n nb po ro plain xrf ph na s e dwell flux dets ain aout psf None std false None DtFloat = inr (sino, angles, vol, 0) /\
    angles = sino_angles s e na /\ (forall j, vol j = flux * dwell * detector_solidangle * ph j) /\
    sino = match ain, aout with None, None => plain angles None vol | _, _ => xrf angles ain aout dets psf vol end.
Proof.
  intros n nb po ro psf_t plain xrf ph na s e dwell flux dets ain aout psf std L1 L2. unfold create_sino. cbv zeta. rewrite C169_noise_free.
  do 3 eexists. split; [reflexivity|]. split; [reflexivity|]. split; [intros j; ring|].
  assert (V : (fun j => ph j * (flux * dwell) * detector_solidangle) = fun j => flux * dwell * detector_solidangle * ph j) by (apply functional_extensionality; intros j; ring). rewrite V.
  destruct ain, aout; rewrite ?(proj1 (L1 _)), ?(proj1 (L2 _ _ _ _ _)); reflexivity.
Qed.
(** flux and dwell time only matter through their product *)
Theorem C170_photons : forall n nb po ro psf_t (plain : list R -> option psf_t -> vec -> vec) xrf ph na s e dwell flux dwell' flux' dets ain aout psf avg std pois rd d,
  flux * dwell = flux' * dwell' ->
  create_sino n nb po ro plain xrf ph na s e dwell flux dets ain aout psf avg std pois rd d = create_sino n nb po ro plain xrf ph na s e dwell' flux' dets ain aout psf avg std pois rd d.
Proof. intros. unfold create_sino. cbv zeta. rewrite H. reflexivity. Qed.
(** without attenuation volumes the point spread function is ignored *)
Theorem C170_psf_ignored_refuted : forall n nb po ro psf_t (plain : list R -> option psf_t -> vec -> vec) xrf ph na s e dwell flux dets psf avg std pois rd d,
  create_sino n nb po ro plain xrf ph na s e dwell flux dets None None psf avg std pois rd d = create_sino n nb po ro plain xrf ph na s e dwell flux dets None None None avg std pois rd d.
Proof. reflexivity. Qed.
(** the angles: from the start, equally spaced, the end excluded *)
Theorem C170_angles : forall s e na, List.length (sino_angles s e na) = na /\
  forall i, (i < na)%nat -> nth i (sino_angles s e na) 0 = deg2rad s + INR i * ((deg2rad e - deg2rad s) / INR na).
Proof.
  intros s e na. unfold sino_angles. split; [rewrite map_length, seq_length; reflexivity|]. intros i Hi.
  rewrite nth_indep with (d' := sino_angle s e na 0) by (rewrite map_length, seq_length; exact Hi). rewrite map_nth, seq_nth by exact Hi. unfold sino_angle, deg2rad. cbn [Nat.add].
  assert (INR na <> 0) by (apply not_0_INR; lia). field. assumption.
Qed.
Theorem C170_angles_range : forall s e na i, s < e -> (i < na)%nat -> deg2rad s <= nth i (sino_angles s e na) 0 < deg2rad e.
Proof.
  intros s e na i Hse Hi. rewrite (proj2 (C170_angles s e na) i Hi). pose proof PI_RGT_0. assert (D : deg2rad s < deg2rad e) by (unfold deg2rad; nra).
  assert (N0 : 0 < INR na) by (apply lt_0_INR; lia). assert (H1 : INR i < INR na) by (apply lt_INR; exact Hi). pose proof (pos_INR i). set (d := deg2rad e - deg2rad s) in *.
  assert (E : INR i * (d / INR na) = d * (INR i / INR na)) by (unfold Rdiv; ring). rewrite E.
  assert (0 <= INR i / INR na) by (apply Rdiv_le_0_compat; assumption).
  assert (INR i / INR na < 1) by (apply Rmult_lt_reg_r with (INR na); [exact N0|]; unfold Rdiv; rewrite Rmult_assoc, Rinv_l by lra; lra).
  unfold d in *. split; nra.
Qed.
Example C170_example : (forall a : list R, linear (fun x : vec => fun _ : nat => x 0%nat)) /\ nth 1 (sino_angles 0 180 2) 0 = PI / 2 /\ 0 < detector_solidangle.
Proof.
  split; [intros _; split; reflexivity|]. split; [rewrite (proj2 (C170_angles 0 180 2)) by lia; unfold deg2rad; cbn [INR]; field|]. unfold detector_solidangle. apply pow_lt. lra.
Qed.

(** * C171: create_sino_transmission *)
(** flat-field correction and logarithm give back the line integrals *)
Theorem C171_round_trip : forall n po ro po' ro' psf_t (plain : list R -> option psf_t -> vec -> vec) ph na s e dwell flux psf, 0 < flux * dwell ->
  exists sino flat, create_sino_transmission n po ro po' ro' plain ph na s e dwell flux psf false None DtFloat = inr (sino, flat, sino_angles s e na, ph) /\
    forall i (w : nat) l, apply_minus_log MInf (apply_flat_field 1 (fun _ _ => sino i) (fun _ _ => flat i) None None w l) = ProcPreModel.Fin (plain (sino_angles s e na) psf ph i).
Proof.
  intros n po ro po' ro' psf_t plain ph na s e dwell flux psf Hk. unfold create_sino_transmission. cbv zeta. rewrite !C169_noise_free. do 2 eexists. split; [reflexivity|].
  intros i w l. unfold apply_flat_field, mean_flat, opt_sub. cbn [rsum INR]. set (t := plain _ psf ph i).
  replace (flux * dwell * 1 * exp (- t) / ((0 + flux * dwell * 1 * 1) / 1)) with (exp (- t)) by (field; split; intros ->; lra).
  unfold apply_minus_log, np_neg_log. destruct (Rlt_dec 0 (exp (- t))) as [_|H]; [|exfalso; apply H, exp_pos]. rewrite ln_exp, Ropp_involutive. reflexivity.
Qed.
(** counts are positive and, for non-negative line integrals, never exceed the flat field *)
Theorem C171_counts : forall n po ro po' ro' psf_t (plain : list R -> option psf_t -> vec -> vec) ph na s e dwell flux psf sino flat a v, 0 < flux * dwell ->
  create_sino_transmission n po ro po' ro' plain ph na s e dwell flux psf false None DtFloat = inr (sino, flat, a, v) ->
  forall i, 0 < sino i /\ flat i = flux * dwell /\ (0 <= plain a psf ph i -> sino i <= flat i).
Proof.
  intros n po ro po' ro' psf_t plain ph na s e dwell flux psf sino flat a v Hk. unfold create_sino_transmission. cbv zeta. rewrite !C169_noise_free. intros [= <- <- <- <-] i.
  pose proof (exp_pos (- plain (sino_angles s e na) psf ph i)) as P. split; [apply Rmult_lt_0_compat; lra|]. split; [ring|]. intros H.
  assert (exp (- plain (sino_angles s e na) psf ph i) <= 1); [|nra]. rewrite <- exp_0. destruct H as [H|H]; [left; apply exp_increasing; lra|rewrite <- H, Ropp_0; lra].
Qed.
(** with noise: fails only for a negative read-out spread (the exact counts are never negative) *)
Theorem C171_noise_raises_iff : forall n po ro po' ro' psf_t (plain : list R -> option psf_t -> vec -> vec) ph na s e dwell flux psf pois rd, 0 <= flux * dwell ->
  (exists er, create_sino_transmission n po ro po' ro' plain ph na s e dwell flux psf pois rd DtFloat = inl er) <-> exists s, rd = Some s /\ s < 0.
Proof.
  intros n po ro po' ro' psf_t plain ph na s e dwell flux psf pois rd Hk. unfold create_sino_transmission. cbv zeta.
  pose proof (C169_raises_iff n (fun _ _ => vzeros) po ro (fun i => exp (- plain (sino_angles s e na) psf ph i)) (flux * dwell) pois rd None None 1) as A.
  pose proof (C169_raises_iff n (fun _ _ => vzeros) po' ro' (fun _ => 1) (flux * dwell) pois rd None None 1) as B.
  assert (A' : (exists er, add_noise n (fun _ _ => vzeros) po ro (fun i => exp (- plain (sino_angles s e na) psf ph i)) (flux * dwell) pois rd None None 1 DtFloat = inl er) <-> exists s, rd = Some s /\ s < 0).
  { rewrite A. split; [|auto]. intros [(x & [=] & _)|[(_ & i & _ & H)|H]]; [|exact H]. exfalso. unfold added in H. pose proof (exp_pos (- plain (sino_angles s e na) psf ph i)). nra. }
  assert (B' : (exists er, add_noise n (fun _ _ => vzeros) po' ro' (fun _ => 1) (flux * dwell) pois rd None None 1 DtFloat = inl er) <-> exists s, rd = Some s /\ s < 0).
  { rewrite B. split; [|auto]. intros [(x & [=] & _)|[(_ & i & _ & H)|H]]; [|exact H]. exfalso. unfold added in H. lra. }
  destruct (add_noise n _ po ro _ _ pois rd None None 1 DtFloat) as [e1|[[s1 c1] b1]]; [rewrite <- A'; split; intros; eauto|].
  destruct (add_noise n _ po' ro' _ _ pois rd None None 1 DtFloat) as [e2|[[s2 c2] b2]]; [rewrite <- B'; split; intros; eauto|].
  rewrite <- A'. split; intros (x & H); discriminate.
Qed.
(** integer data types: every attenuated pixel is recorded as zero counts *)
Theorem C171_integer_dtype_refuted : forall n po ro po' ro' psf_t (plain : list R -> option psf_t -> vec -> vec) ph na s e dwell flux psf,
  exists sino flat, create_sino_transmission n po ro po' ro' plain ph na s e dwell flux psf false None DtInt = inr (sino, flat, sino_angles s e na, ph) /\
    forall i, 0 < plain (sino_angles s e na) psf ph i -> sino i = 0.
Proof.
  intros. unfold create_sino_transmission, add_noise. cbv zeta. do 2 eexists. split; [reflexivity|]. intros i Hi. cbn [astype]. unfold rtrunc.
  set (t := plain (sino_angles s e na) psf ph i) in *. pose proof (exp_pos (- t)) as P. destruct (Rlt_dec (exp (- t)) 0); [lra|].
  assert (exp (- t) < 1) by (rewrite <- exp_0; apply exp_increasing; lra). rewrite (rfloor_unique (exp (- t)) 0) by lra. ring.
Qed.
Example C171_example : 0 < 1000000000 * 1 /\ 0 <= (fun (_ : list R) (_ : option unit) (x : vec) (i : nat) => 2 * x 0%nat) [] None (fun _ => 3) 0%nat. Proof. cbv beta. split; lra. Qed.

(** * C172: compute_error_power *)
Definition rms (n : nat) (x : vec) : R := sqrt (rsum n (fun i => x i ^ 2) / INR n).
Lemma power_rms n e c : compute_error_power n e c = (rms n e, rms n (fun i => e i - c i)).
Proof. unfold compute_error_power, rms. f_equal. f_equal. f_equal. apply rsum_ext. intros i _. rewrite <- !Rsqr_pow2. symmetry. apply Rsqr_abs. Qed.
Lemma rms_sq n x : (0 < n)%nat -> INR n * rms n x ^ 2 = rsum n (fun i => x i ^ 2).
Proof.
  intros Hn. assert (N0 : 0 < INR n) by (apply lt_0_INR; lia). unfold rms. rewrite <- Rsqr_pow2, Rsqr_sqrt; [field; lra|]. apply Rdiv_le_0_compat; [|exact N0]. apply rsum_nonneg. intros; apply pow2_ge_0.
Qed.
Lemma rms_nonneg n x : 0 <= rms n x. Proof. apply sqrt_pos. Qed.
Theorem C172_values : forall n e c, (0 < n)%nat -> let '(p, q) := compute_error_power n e c in
  0 <= p /\ 0 <= q /\ INR n * p ^ 2 = rsum n (fun i => e i ^ 2) /\ INR n * q ^ 2 = rsum n (fun i => (e i - c i) ^ 2).
Proof. intros n e c Hn. rewrite power_rms. repeat split; try apply rms_nonneg; apply rms_sq, Hn. Qed.
(** the error is zero exactly for equal volumes *)
Theorem C172_zero_iff : forall n e c, (0 < n)%nat -> snd (compute_error_power n e c) = 0 <-> forall i, (i < n)%nat -> e i = c i.
Proof.
  intros n e c Hn. rewrite power_rms. cbn [snd]. assert (N0 : 0 < INR n) by (apply lt_0_INR; lia). pose proof (rms_sq n (fun i => e i - c i) Hn) as H. split.
  - intros E i Hi. rewrite E in H. pose proof (rsum_term_le n (fun i => (e i - c i) ^ 2) i ltac:(intros; apply pow2_ge_0) Hi) as T. cbv beta in T, H.
    assert (Z : (e i - c i) ^ 2 = 0) by (pose proof (pow2_ge_0 (e i - c i)); lra). assert (e i - c i = 0); [|lra]. apply Rsqr_0_uniq. unfold Rsqr. lra.
  - intros E. unfold rms. rewrite rsum_zero by (intros i Hi; rewrite (E i Hi); ring). unfold Rdiv. rewrite Rmult_0_l. apply sqrt_0.
Qed.
(** the two powers are consistent: the powers of expected and computed volume differ by at most the error power *)
Theorem C172_triangle : forall n e c, (0 < n)%nat ->
  Rabs (fst (compute_error_power n e c) - fst (compute_error_power n c e)) <= snd (compute_error_power n e c).
Proof.
  intros n e c Hn. rewrite !power_rms. cbn [fst snd]. assert (N0 : 0 < INR n) by (apply lt_0_INR; lia).
  pose proof (rms_sq n e Hn) as E. pose proof (rms_sq n c Hn) as C. pose proof (rms_sq n (fun i => e i - c i) Hn) as D. cbv beta in D.
  pose proof (rms_nonneg n e). pose proof (rms_nonneg n c). pose proof (rms_nonneg n (fun i => e i - c i)).
  assert (CS : rsum n (fun i => e i * c i) <= INR n * (rms n e * rms n c)).
  { pose proof (rsum_CS n e c) as H2. unfold norm2 in H2. rewrite <- E, <- C in H2. apply Rnot_lt_le. intros Hc. assert (0 <= INR n * (rms n e * rms n c)) by (apply Rmult_le_pos; [lra|apply Rmult_le_pos; assumption]).
    assert ((INR n * (rms n e * rms n c)) ^ 2 < rsum n (fun i => e i * c i) ^ 2) by (set (a := INR n * (rms n e * rms n c)) in *; set (b := rsum n (fun i => e i * c i)) in *; nra). nra. }
  assert (DD : INR n * rms n (fun i => e i - c i) ^ 2 = INR n * rms n e ^ 2 - 2 * rsum n (fun i => e i * c i) + INR n * rms n c ^ 2).
  { rewrite D, E, C, <- rsum_scal, <- rsum_minus, <- rsum_plus. apply rsum_ext. intros; ring. }
  assert (Q : (rms n e - rms n c) ^ 2 <= rms n (fun i => e i - c i) ^ 2). { apply Rmult_le_reg_l with (INR n); [exact N0|]. rewrite DD. nra. }
  apply Rsqr_incr_0_var; [|assumption]. rewrite <- Rsqr_abs. unfold Rsqr. lra.
Qed.
Example C172_example : compute_error_power 1 (fun _ => 3) (fun _ => 1) = (3, 2).
Proof.
  rewrite power_rms. unfold rms. cbn [rsum INR]. replace ((0 + 3 ^ 2) / 1) with (3 ^ 2) by field. replace ((0 + (3 - 1) ^ 2) / 1) with (2 ^ 2) by field. rewrite !sqrt_pow2 by lra. reflexivity.
Qed.

(** * C173: the phases of the XRF phantom *)
Definition boundary (v : R) : Prop := v = 1 / 10 \/ v = 25 / 100 \/ v = 5 / 10.
(** a voxel off the three thresholds consists of exactly one material *)
Theorem C173_one_phase : forall v, ~ boundary v -> exists k, (k < 4)%nat /\ forall j, nth j (phase_fractions v) 0 = if Nat.eqb j k then 1 else 0.
Proof.
  intros v Hb. unfold boundary in Hb. unfold phase_fractions, rlt.
  assert (C : v < 1 / 10 \/ 1 / 10 < v < 25 / 100 \/ 25 / 100 < v < 5 / 10 \/ 5 / 10 < v) by (destruct (Rtotal_order v (1 / 10)) as [|[|]], (Rtotal_order v (25 / 100)) as [|[|]], (Rtotal_order v (5 / 10)) as [|[|]]; tauto || lra).
  destruct C as [C|[C|[C|C]]]; [exists 0%nat|exists 3%nat|exists 2%nat|exists 1%nat]; (split; [lia|]);
    destruct (Rlt_dec v (1 / 10)), (Rlt_dec (5 / 10) v), (Rlt_dec (25 / 100) v), (Rlt_dec v (5 / 10)), (Rlt_dec (1 / 10) v), (Rlt_dec v (25 / 100)); try lra; intros [|[|[|[|[|j]]]]]; reflexivity.
Qed.
(** on a threshold there is no material at all (not even air): no attenuation, no fluorescence *)
Theorem C173_threshold_refuted : forall v, boundary v -> (forall j, nth j (phase_fractions v) 0 = 0) /\
  (forall voxel mats, phantom_attenuation voxel mats v = 0) /\ forall voxel el cmps yield lines, phantom_fluo voxel el cmps yield lines v = 0.
Proof.
  intros v Hb. assert (E : phase_fractions v = [0; 0; 0; 0]).
  { unfold phase_fractions, rlt. destruct Hb as [->|[->| ->]]; repeat match goal with |- context [Rlt_dec ?a ?b] => destruct (Rlt_dec a b); try lra end; reflexivity. }
  assert (Z : forall A (l : list A) (f : R * A -> R), (forall a, f (0, a) = 0) -> lsum (combine (phase_fractions v) l) f = 0).
  { intros A l f Hf. rewrite E. unfold lsum. destruct l as [|a1 [|a2 [|a3 [|a4 l]]]]; cbn; rewrite ?Hf; ring. }
  split; [rewrite E; intros [|[|[|[|[|j]]]]]; reflexivity|]. split.
  - intros voxel mats. unfold phantom_attenuation, vm_attenuation. rewrite Z by (intros; cbn; ring). ring.
  - intros voxel el cmps yield lines. unfold phantom_fluo, vm_fluo, vm_mass_fraction. rewrite Z; [ring|]. intros c. cbn [fst snd]. destruct (first_fraction _ _ _); ring.
Qed.
(** off the thresholds: attenuation per voxel length of the one material *)
Theorem C173_attenuation : forall voxel m0 m1 m2 m3 v, ~ boundary v -> exists m, In m [m0; m1; m2; m3] /\
  phantom_attenuation voxel [m0; m1; m2; m3] v = fst m * snd m * (voxel / 10000).
Proof.
  intros voxel m0 m1 m2 m3 v Hb. destruct (C173_one_phase v Hb) as (k & Hk & H). unfold phantom_attenuation, vm_attenuation.
  assert (E : phase_fractions v = [nth 0 (phase_fractions v) 0; nth 1 (phase_fractions v) 0; nth 2 (phase_fractions v) 0; nth 3 (phase_fractions v) 0]) by reflexivity.
  rewrite E, !H. unfold lsum. cbn [combine fold_right fst snd]. destruct k as [|[|[|[|k]]]]; [exists m0|exists m1|exists m2|exists m3|lia]; (split; [cbn; tauto|cbn [Nat.eqb]; field]).
Qed.
Example C173_example : ~ boundary (3 / 10) /\ boundary (5 / 10) /\ nth 2 (phase_fractions (3 / 10)) 0 = 1.
Proof.
  split; [unfold boundary; lra|]. split; [unfold boundary; lra|]. unfold phase_fractions, rlt. cbn. destruct (Rlt_dec (25 / 100) (3 / 10)); [|lra]. destruct (Rlt_dec (3 / 10) (5 / 10)); [reflexivity|lra].
Qed.

(** * C174: the list of volumes of the multi-element phantom *)
(** one volume per element, in order, plus one for Compton scattering when a detector position is given *)
Theorem C174_volumes : forall A (fluo : string -> string -> A) compton els line dets vols, assign_multi fluo compton els (LinesStr line) dets = inr vols ->
  List.length vols = (List.length els + match dets with DetNone => 0 | _ => 1 end)%nat /\
  (forall i el, nth_error els i = Some el -> nth_error vols i = Some (Some (fluo el line))) /\
  forall a, dets = DetNum a -> a <> 0 -> nth_error vols (List.length els) = Some (Some (compton dets)).
Proof.
  intros A fluo compton els line dets vols H. unfold assign_multi in H.
  assert (F : forall els ii, fluo_vols fluo els (LinesStr line) ii = inr (map (fun el => Some (fluo el line)) els)) by (induction els0 as [|el els' IH]; intros ii; cbn [fluo_vols line_of map]; [reflexivity|rewrite IH; reflexivity]).
  rewrite F in H. destruct (truthy dets) as [|b] eqn:T; [discriminate|]. injection H as <-. split; [|split].
  - rewrite app_length, map_length. destruct dets; reflexivity.
  - intros i el Hi. rewrite nth_error_app1; [rewrite nth_error_map, Hi; reflexivity|]. rewrite map_length. apply nth_error_Some. congruence.
  - intros a -> Ha. rewrite nth_error_app2; rewrite map_length; [|lia]. rewrite Nat.sub_diag. cbn in T. destruct (Req_EM_T a 0); [contradiction|]. injection T as <-. reflexivity.
Qed.
(** a detector at 0 rad: the Compton volume is announced but left empty *)
Theorem C174_zero_angle_refuted : forall A (fluo : string -> string -> A) compton els line, exists vols,
  assign_multi fluo compton els (LinesStr line) (DetNum 0) = inr vols /\ List.length vols = (List.length els + 1)%nat /\ nth_error vols (List.length els) = Some None.
Proof.
  intros A fluo compton els line. unfold assign_multi.
  assert (F : forall els ii, fluo_vols fluo els (LinesStr line) ii = inr (map (fun el => Some (fluo el line)) els)) by (induction els0 as [|el els' IH]; intros ii; cbn [fluo_vols line_of map]; [reflexivity|rewrite IH; reflexivity]).
  rewrite F. cbn [truthy]. destruct (Req_EM_T 0 0); [|contradiction]. eexists. split; [reflexivity|]. rewrite app_length, map_length. split; [reflexivity|].
  rewrite nth_error_app2; rewrite map_length; [|lia]. rewrite Nat.sub_diag. reflexivity.
Qed.
(** an array of several detector positions always raises *)
Theorem C174_array_refuted : forall A (fluo : string -> string -> A) compton els line a b rest, assign_multi fluo compton els (LinesStr line) (DetArr (a :: b :: rest)) = inl ValueError.
Proof.
  intros. unfold assign_multi.
  assert (F : forall els ii, fluo_vols fluo els (LinesStr line) ii = inr (map (fun el => Some (fluo el line)) els)) by (induction els0 as [|el els' IH]; intros ii; cbn [fluo_vols line_of map]; [reflexivity|rewrite IH; reflexivity]).
  rewrite F. reflexivity.
Qed.
(** a list of lines pairs them with the elements; too short a list raises IndexError *)
Theorem C174_line_list : forall A (fluo : string -> string -> A) compton els lines, 
  assign_multi fluo compton els (LinesSeq lines) DetNone = if (List.length lines <? List.length els)%nat then inl IndexError
    else inr (map (fun p => Some (fluo (fst p) (snd p))) (combine els lines)).
Proof.
  intros A fluo compton els lines. unfold assign_multi. cbn [truthy].
  assert (F : forall els ii, fluo_vols fluo els (LinesSeq lines) ii = if (List.length lines - ii <? List.length els)%nat then inl IndexError
    else inr (map (fun p => Some (fluo (fst p) (snd p))) (combine els (skipn ii lines)))).
  { induction els0 as [|el els' IH]; intros ii; cbn [fluo_vols line_of map List.length combine]; [reflexivity|].
    destruct (nth_error lines ii) as [l|] eqn:E.
    - assert (L : (ii < List.length lines)%nat) by (apply nth_error_Some; congruence). rewrite IH.
      assert (S0 : skipn ii lines = l :: skipn (S ii) lines).
      { clear -E. revert lines E. induction ii as [|ii IH]; intros [|x r] E; try discriminate; cbn in E; [injection E as ->; reflexivity|]. cbn [skipn]. rewrite (IH r E). reflexivity. }
      rewrite S0. cbn [combine map fst snd].
      destruct (Nat.ltb_spec (List.length lines - S ii) (List.length els')), (Nat.ltb_spec (List.length lines - ii) (S (List.length els'))); try lia; reflexivity.
    - apply nth_error_None in E. destruct (Nat.ltb_spec (List.length lines - ii) (S (List.length els'))); [reflexivity|lia]. }
  rewrite F, Nat.sub_0_r. cbn [skipn]. destruct (List.length lines <? List.length els)%nat; [reflexivity|]. rewrite app_nil_r. reflexivity.
Qed.

Example C174_example : assign_multi (fun e l => (e, l)) (fun _ => ("Compton"%string, ""%string)) ["Ca"%string; "Fe"%string] (LinesSeq ["KA"%string]) DetNone = inl IndexError /\
  assign_multi (fun e l => (e, l)) (fun _ => ("Compton"%string, ""%string)) ["Ca"%string] (LinesStr "KA"%string) (DetNum 1) = inr [Some ("Ca"%string, "KA"%string); Some ("Compton"%string, ""%string)].
Proof. split; [reflexivity|]. unfold assign_multi. cbn. destruct (Req_EM_T 1 0); [lra|reflexivity]. Qed.

(** * C175: roundup_to_pow2 *)
(** the smallest multiple of 2^p not below x *)
Theorem C175_roundup : forall x p, x <= IZR (roundup_to_pow2 x p) < x + 2 ^ p /\ (2 ^ Z.of_nat p | roundup_to_pow2 x p)%Z /\
  forall z, (2 ^ Z.of_nat p | z)%Z -> x <= IZR z -> (roundup_to_pow2 x p <= z)%Z.
Proof.
  intros x p. unfold roundup_to_pow2. assert (P : IZR (2 ^ Z.of_nat p) = 2 ^ p) by (rewrite <- pow_IZR; reflexivity).
  assert (Q : 0 < 2 ^ p) by (apply pow_lt; lra). pose proof (rceil_spec (x / 2 ^ p)) as [C1 C2]. rewrite mult_IZR, P. set (c := IZR (rceil (x / 2 ^ p))) in *.
  assert (E : x = x / 2 ^ p * 2 ^ p) by (field; lra). split; [split|split].
  - rewrite E at 1. apply Rmult_le_compat_r; lra.
  - assert (c * 2 ^ p < (x / 2 ^ p + 1) * 2 ^ p) by (apply Rmult_lt_compat_r; lra). rewrite E at 1. lra.
  - exists (rceil (x / 2 ^ p)). reflexivity.
  - intros z [k ->] H. rewrite mult_IZR, P in H. apply Z.mul_le_mono_nonneg_r; [apply Z.pow_nonneg; lia|]. apply rceil_le. apply Rmult_le_reg_r with (2 ^ p); [exact Q|]. lra.
Qed.
Theorem C175_idempotent : forall x p, roundup_to_pow2 (IZR (roundup_to_pow2 x p)) p = roundup_to_pow2 x p.
Proof.
  intros x p. destruct (C175_roundup x p) as (_ & D & _). destruct (C175_roundup (IZR (roundup_to_pow2 x p)) p) as ([L _] & _ & M). apply Z.le_antisymm; [apply M; [exact D|lra]|apply le_IZR, L].
Qed.
Example C175_example : roundup_to_pow2 5 2 = 8%Z.
Proof. unfold roundup_to_pow2. rewrite (rceil_unique (5 / 2 ^ 2) 2) by (cbn; lra). reflexivity. Qed.

(** * C176: pixel size of the nuclei phantom *)
(** the pixel size does not follow the requested field-of-view size: it is 0.26 um for every size *)
Theorem C176_pixel_size_refuted : forall f, (0 < f)%nat -> nuclei_last_axis 256 (Some f) = f /\ nuclei_pixel_um 256 (Some f) = 26 / 100 /\
  (f <> 256%nat -> nuclei_pixel_um 256 (Some f) * INR f <> 26 / 100 * INR 256).
Proof.
  intros f Hf. assert (F0 : 0 < INR f) by (apply lt_0_INR; exact Hf).
  assert (E : nuclei_last_axis 256 (Some f) = f).
  { unfold nuclei_last_axis, np_round. replace (INR f / INR 256 * INR 256) with (INR f) by (field; apply not_0_INR; lia). rewrite (rfloor_unique _ (Z.of_nat f)); [apply Nat2Z.id|]. rewrite <- INR_IZR_INZ. lra. }
  assert (P : nuclei_pixel_um 256 (Some f) = 26 / 100) by (unfold nuclei_pixel_um; rewrite E; field; lra).
  split; [exact E|]. split; [exact P|]. rewrite P. intros Hn H. apply Hn, INR_eq. lra.
Qed.
Theorem C176_default : nuclei_last_axis 256 None = 256%nat /\ nuclei_pixel_um 256 None * INR (nuclei_last_axis 256 None) = 26 / 100 * INR 256.
Proof. unfold nuclei_pixel_um, nuclei_last_axis. split; [reflexivity|]. assert (INR 256 <> 0) by (apply not_0_INR; lia). field. assumption. Qed.
