(** Properties of processing/pre.py: C68-C71, C123-C126. *)
From Coq Require Import Reals Lra Lia List ZArith Bool.
Import ListNotations.
From Verif Require Import Sums Arrays OperatorsModel Rounding PyErr Reindex ProcMiscProps ProcPreModel.
Open Scope R_scope.

(** * C123: padding *)
(** Cropping the padded sinogram gives the original back, for every mode (edge, constant, wrap, reflect, symmetric). *)
Theorem C123_pad_then_crop mode s ax width x s' x' l :
  pad_sinogram mode s ax width x = inr (s', x') -> (norm_axis (length s) ax < length s)%nat -> inb s l ->
  let a := norm_axis (length s) ax in
  exists b e, pad_pair width = inr (b, e) /\ nth a s' 0%nat = (b + nth a s 0 + e)%nat
    /\ (forall d, d <> a -> nth d s' 0%nat = nth d s 0%nat)
    /\ x' (set_nth a (b + nth a l 0)%nat l) = x l.
Proof.
  intros H Ha Hl a. unfold pad_sinogram in H. destruct (pad_pair width) as [?|[b e]]; [discriminate|]. inversion H; subst s' x'; clear H.
  exists b, e. split; [reflexivity|]. fold a in Ha |- *. rewrite nth_set_nth by exact Ha. split; [reflexivity|]. split.
  - intros d Hd. apply OperatorsLayoutProps.nth_set_other. congruence.
  - pose proof (inb_length _ _ Hl) as Ll. pose proof (inb_nth _ a _ Hl Ha) as Hn.
    unfold along. rewrite nth_set_nth by lia. unfold np_pad.
    replace (Z.of_nat (b + nth a l 0%nat) - Z.of_nat b)%Z with (Z.of_nat (nth a l 0%nat)) by lia.
    assert (E : pad_index mode (nth a s 0%nat) (Z.of_nat (nth a l 0%nat)) = Some (nth a l 0%nat)).
    { unfold pad_index. destruct mode.
      - destruct (Z.leb_spec 0 (Z.of_nat (nth a l 0%nat))); [|lia]. destruct (Z.ltb_spec (Z.of_nat (nth a l 0%nat)) (Z.of_nat (nth a s 0%nat))); [|lia].
        simpl. now rewrite Nat2Z.id.
      - f_equal. lia.
      - rewrite Z.mod_small by lia. now rewrite Nat2Z.id.
      - destruct (Nat.eq_dec (nth a s 0%nat) 1) as [E1|E1].
        + rewrite E1. assert (nth a l 0%nat = 0%nat) as -> by lia. reflexivity.
        + rewrite Z.mod_small by lia. destruct (Z.ltb_spec (Z.of_nat (nth a l 0%nat)) (Z.of_nat (nth a s 0%nat))); [|lia]. now rewrite Nat2Z.id.
      - rewrite Z.mod_small by lia. destruct (Z.ltb_spec (Z.of_nat (nth a l 0%nat)) (Z.of_nat (nth a s 0%nat))); [|lia]. now rewrite Nat2Z.id. }
    rewrite E. simpl. rewrite set_set_nth. f_equal. apply set_nth_nth.
Qed.
(** The default mode repeats the first and last sample on the two sides. *)
Theorem C123_edge_values s ax width x s' x' l b e :
  pad_sinogram PadEdge s ax width x = inr (s', x') -> pad_pair width = inr (b, e) -> (norm_axis (length s) ax < length s)%nat ->
  inb s' l -> let a := norm_axis (length s) ax in let n := nth a s 0%nat in
  (nth a l 0%nat < b -> x' l = x (set_nth a 0%nat l))%nat /\ (b + n <= nth a l 0%nat -> x' l = x (set_nth a (n - 1)%nat l))%nat.
Proof.
  intros H W Ha Hl a n. unfold pad_sinogram in H. rewrite W in H. inversion H; subst s' x'; clear H. fold a in Ha, Hl |- *.
  unfold along, np_pad, pad_index. fold n. split; intros Hk; cbn [read]; f_equal; f_equal; lia.
Qed.
(** A single width pads both sides equally; only one or two widths are accepted. *)
Theorem C123_widths mode s ax width x :
  (exists w, width = [w] /\ pad_sinogram mode s ax width x = pad_sinogram mode s ax [w; w] x)
  \/ (exists b e, width = [b; e] /\ exists r, pad_sinogram mode s ax width x = inr r)
  \/ pad_sinogram mode s ax width x = inl ValueError.
Proof.
  destruct width as [|b [|e [|c r]]]; [right; right; reflexivity|left; exists b; split; reflexivity| |right; right; reflexivity].
  right; left. exists b, e. split; [reflexivity|]. eexists; reflexivity.
Qed.

(** * C71: flat field and linearisation *)
Definition transmitted (num_f : nat) (flats : nat -> arr) (darks : option arr) (p : nat -> arr) : nat -> arr := fun w l =>
  mean_flat num_f flats darks l * exp (- p w l) + match darks with Some d => d l | None => 0 end.
(** Intensities following the Beer-Lambert law with line integrals p are mapped back to exactly p. *)
Theorem C71_beer_lambert_inverted num_f flats darks p w l : 0 < mean_flat num_f flats darks l ->
  apply_minus_log MInf (apply_flat_field num_f (transmitted num_f flats darks p) flats darks None w l) = Fin (p w l).
Proof.
  intros H. unfold apply_flat_field, transmitted. set (f := mean_flat num_f flats darks l) in *.
  assert (E : opt_sub darks (f * exp (- p w l) + match darks with Some d => d l | None => 0 end) l / f = exp (- p w l)).
  { unfold opt_sub. destruct darks; field; lra. }
  rewrite E. unfold apply_minus_log, np_neg_log. destruct (Rlt_dec 0 (exp (- p w l))) as [_|N]; [|exfalso; apply N, exp_pos].
  rewrite ln_exp, Ropp_involutive. reflexivity.
Qed.
(** with a finite lower limit: the larger of p and the limit *)
Theorem C71_lower_limit num_f flats darks p w l ll : 0 < mean_flat num_f flats darks l ->
  apply_minus_log (Fin ll) (apply_flat_field num_f (transmitted num_f flats darks p) flats darks None w l) = Fin (Rmax (p w l) ll).
Proof.
  intros H. pose proof (C71_beer_lambert_inverted num_f flats darks p w l H) as E. unfold apply_minus_log in *.
  destruct (np_neg_log _) as [[|y|]|]; simpl in *; inversion E; reflexivity.
Qed.
(** A per-pixel gain of the detector cancels. *)
Theorem C71_gain_invariant num_f projs flats darks cap (g : arr) w l : g l <> 0 ->
  apply_flat_field num_f (fun w l => g l * projs w l) (fun j l => g l * flats j l) (option_map (fun d l => g l * d l) darks) cap w l
  = apply_flat_field num_f projs flats darks cap w l.
Proof.
  intros Hg. unfold apply_flat_field.
  assert (M : mean_flat num_f (fun j l => g l * flats j l) (option_map (fun d l => g l * d l) darks) l = g l * mean_flat num_f flats darks l).
  { unfold mean_flat. rewrite (rsum_ext _ _ (fun j => g l * opt_sub darks (flats j l) l)) by (intros; unfold opt_sub; destruct darks; simpl; ring).
    rewrite rsum_scal. unfold Rdiv. ring. }
  assert (E : opt_sub (option_map (fun d l => g l * d l) darks) (g l * projs w l) l / mean_flat num_f (fun j l => g l * flats j l) (option_map (fun d l => g l * d l) darks) l
              = opt_sub darks (projs w l) l / mean_flat num_f flats darks l).
  { rewrite M. replace (opt_sub (option_map (fun d l => g l * d l) darks) (g l * projs w l) l) with (g l * opt_sub darks (projs w l) l)
      by (unfold opt_sub; destruct darks; simpl; ring).
    destruct (Req_dec (mean_flat num_f flats darks l) 0) as [Z|Z]; [|field; auto].
    rewrite Z, Rmult_0_r. unfold Rdiv. rewrite Rinv_0. ring. }
  rewrite E. reflexivity.
Qed.
(** cap_intensity bounds the transmission from above, hence the linearised value from below. *)
Theorem C71_cap num_f projs flats darks c w l :
  apply_flat_field num_f projs flats darks (Some c) w l <= c
  /\ (apply_flat_field num_f projs flats darks None w l <= c ->
      apply_flat_field num_f projs flats darks (Some c) w l = apply_flat_field num_f projs flats darks None w l).
Proof. unfold apply_flat_field. split; [apply Rmin_r|]. intros H. now apply Rmin_left. Qed.
Theorem C71_cap_then_log num_f projs flats darks c w l : 0 < c ->
  0 < apply_flat_field num_f projs flats darks None w l ->
  exists y, apply_minus_log MInf (apply_flat_field num_f projs flats darks (Some c) w l) = Fin y /\ - ln c <= y.
Proof.
  intros Hc H. set (t := apply_flat_field num_f projs flats darks (Some c) w l).
  assert (Ht : 0 < t <= c). { unfold t, apply_flat_field in *. split; [now apply Rmin_glb_lt|apply Rmin_r]. }
  exists (- ln t). unfold apply_minus_log, np_neg_log. destruct (Rlt_dec 0 t); [|lra]. split; [reflexivity|].
  apply Ropp_le_contravar. destruct (Req_dec t c) as [->|]; [lra|]. left. apply ln_increasing; lra.
Qed.
(** Cropping before (as the code does) equals cropping the result. *)
Theorem C71_crop num_f projs flats darks cap c0 c1 w v u :
  apply_flat_field num_f (fun w => crop_vu c0 c1 (projs w)) (fun j => crop_vu c0 c1 (flats j)) (option_map (crop_vu c0 c1) darks) cap w [v; u]
  = crop_vu c0 c1 (apply_flat_field num_f projs flats darks cap w) [v; u].
Proof. unfold apply_flat_field, mean_flat, opt_sub, crop_vu. destruct darks; reflexivity. Qed.
(** ... so every pixel of the result is that of the uncropped one, displaced by the start of the crop along both axes. *)
Theorem C71_crop_pixel num_f projs flats darks cap c0 c1 w v u :
  apply_flat_field num_f (fun w => crop_vu c0 c1 (projs w)) (fun j => crop_vu c0 c1 (flats j)) (option_map (crop_vu c0 c1) darks) cap w [v; u]
  = apply_flat_field num_f projs flats darks cap w [(v + c0)%nat; (u + c1)%nat].
Proof. rewrite C71_crop. unfold crop_vu. now rewrite (Nat.add_comm v), (Nat.add_comm u). Qed.
(** apply_minus_log never increases with a positive intensity ... *)
Theorem C71_antitone ll x y : 0 < x <= y -> ext_le (apply_minus_log ll y) (apply_minus_log ll x).
Proof.
  intros H. unfold apply_minus_log, np_neg_log. destruct (Rlt_dec 0 x); [|lra]. destruct (Rlt_dec 0 y); [|lra].
  assert (ln x <= ln y). { destruct (Req_dec x y) as [->|]; [lra|]. left. apply ln_increasing; lra. }
  destruct ll; simpl; auto; try lra. unfold Rmax. repeat destruct (Rle_dec _ _); lra.
Qed.
(** ... but REFUTED across zero: a negative dark-corrected intensity (no light at all) is mapped to the lower limit, -inf by
    default, that is to the most transparent value, while 0 gives +inf. *)
Theorem C71_negative_intensity_refuted ll x : x < 0 -> apply_minus_log ll x = ll /\ apply_minus_log MInf x = MInf /\ apply_minus_log ll 0 = PInf.
Proof.
  intros H. unfold apply_minus_log, np_neg_log. destruct (Rlt_dec 0 x); [lra|]. destruct (Req_EM_T x 0); [lra|].
  destruct (Rlt_dec 0 0); [lra|]. destruct (Req_EM_T 0 0); [|lra]. repeat split. destruct ll; reflexivity.
Qed.
(** REFUTED for stacks of darks: unlike the flats they are not averaged; a stack of nd > 1 darks is rejected unless both the
    projections and the flats come in stacks of the same length nd (or of length 1). *)
Theorem C71_dark_stack_refuted nw nf nd : (1 < nd)%nat ->
  (dark_stack_check nw nf nd = inr tt <-> (nw = nd \/ nw = 1)%nat /\ (nf = nd \/ nf = 1)%nat)
  /\ dark_stack_check 10 3 5 = inl ValueError.
Proof.
  intros H. split; [|reflexivity]. unfold dark_stack_check, broadcast_ok.
  destruct (Nat.eqb_spec nw nd), (Nat.eqb_spec nf nd), (Nat.eqb_spec nw 1), (Nat.eqb_spec nf 1), (Nat.eqb_spec nd 1); simpl; split; intros Q; try discriminate; try reflexivity; try lia; auto; intuition lia.
Qed.
Example C71_example : 0 < mean_flat 2 (fun j _ => INR j + 1) (Some (fun _ => 1 / 2)) [0%nat; 0%nat].
Proof. unfold mean_flat, opt_sub. simpl. lra. Qed.

(** * C124: shifting the projections *)
Lemma clampR_bounds lo hi x : lo <= hi -> lo <= clampR lo hi x <= hi.
Proof. intros H. unfold clampR. split; [apply Rmax_l|]. apply Rmax_lub; [exact H|apply Rmin_r]. Qed.
Lemma shift1_parts n sh i : (0 < n)%nat -> let p := clampR 0 (INR n - 1) (INR i - sh) in let k := Z.to_nat (rfloor p) in
  (k <= n - 1)%nat /\ INR k <= p < INR k + 1.
Proof.
  intros Hn p k. assert (B : 0 <= p <= INR n - 1).
  { apply clampR_bounds. assert (1 <= INR n) by (change 1 with (INR 1); apply le_INR; lia). lra. }
  assert (E : INR k <= p < INR k + 1).
  { unfold k. rewrite INR_IZR_INZ, Z2Nat.id by (apply rfloor_nonneg; lra). apply rfloor_spec. }
  split; [|exact E]. apply INR_le. rewrite minus_INR by lia. simpl (INR 1). lra.
Qed.
(** Shifted values are weighted averages of two samples of the line: constants are kept and the range is respected. *)
Theorem C124_range n sh x i m M : (0 < n)%nat -> (forall j, (j < n)%nat -> m <= x j <= M) -> m <= shift1 n sh x i <= M.
Proof.
  intros Hn H. destruct (shift1_parts n sh i Hn) as [Hk B]. unfold shift1.
  set (p := clampR 0 (INR n - 1) (INR i - sh)) in *. set (k := Z.to_nat (rfloor p)) in *.
  pose proof (H k ltac:(lia)) as H1. pose proof (H (Nat.min (S k) (n - 1)) ltac:(lia)) as H2. nra.
Qed.
Theorem C124_constant n sh c i : (0 < n)%nat -> shift1 n sh (fun _ => c) i = c.
Proof. intros Hn. assert (c <= shift1 n sh (fun _ => c) i <= c); [|lra]. apply C124_range; [exact Hn|]. intros; lra. Qed.
(** An integer shift z moves the samples by z, repeating the border samples. *)
Theorem C124_integer_shift n z x i : (i < n)%nat -> shift1 n (IZR z) x i = x (Z.to_nat (Z.max 0 (Z.min (Z.of_nat i - z) (Z.of_nat n - 1)))).
Proof.
  intros Hi. unfold shift1. set (q := Z.max 0 (Z.min (Z.of_nat i - z) (Z.of_nat n - 1))).
  assert (E : clampR 0 (INR n - 1) (INR i - IZR z) = IZR q).
  { rewrite !INR_IZR_INZ. unfold clampR, q. rewrite <- !minus_IZR.
    unfold Rmin, Rmax. repeat destruct (Rle_dec _ _); f_equal;
    repeat match goal with H : IZR _ <= IZR _ |- _ => apply le_IZR in H | H : ~ IZR _ <= IZR _ |- _ => apply Rnot_le_lt, lt_IZR in H end; lia. }
  rewrite E, rfloor_IZR. rewrite INR_IZR_INZ, Z2Nat.id by (unfold q; lia). ring.
Qed.
Theorem C124_zero_shift n x i : (i < n)%nat -> shift1 n 0 x i = x i.
Proof. intros Hi. rewrite (C124_integer_shift n 0%Z x i Hi). f_equal. lia. Qed.
(** whole projections of any number of axes: no shift is the identity *)
Lemma shift_axes_zero s : forall ax pre x l, length pre = ax -> inb (pre ++ s) l -> shift_axes ax s (map (fun _ => 0) s) x l = x l.
Proof.
  induction s as [|n s IH]; intros ax pre x l Hp Hl; [reflexivity|]. simpl. unfold along.
  assert (Ha : (ax < length (pre ++ n :: s))%nat) by (rewrite app_length; simpl; lia).
  assert (Hn : nth ax (pre ++ n :: s) 0%nat = n) by (rewrite app_nth2 by lia; rewrite Hp, Nat.sub_diag; reflexivity).
  pose proof (inb_nth _ ax _ Hl Ha) as Hi. rewrite Hn in Hi.
  rewrite C124_zero_shift by exact Hi. rewrite set_nth_nth.
  apply (IH (S ax) (pre ++ [n])); [rewrite app_length; simpl; lia|]. now rewrite <- app_assoc.
Qed.
Theorem C124_zero_shift_nd s x l : inb s l -> shift_axes 0 s (map (fun _ => 0) s) x l = x l.
Proof. intros H. apply (shift_axes_zero s 0 [] x l eq_refl H). Qed.
(** REFUTED for the Fourier mode: every odd number of columns raises. *)
Theorem C124_fft_odd_refuted n : (shift_fft_check n = inr tt <-> Nat.even n = true) /\ shift_fft_check 101 = inl ValueError.
Proof.
  split; [|vm_compute; reflexivity]. unfold shift_fft_check, irfft_len. rewrite Nat.add_sub.
  pose proof (Nat.div_mod n 2 ltac:(lia)) as DM. pose proof (Nat.mod_upper_bound n 2 ltac:(lia)) as B.
  assert (Ev : Nat.even n = true <-> (n mod 2 = 0)%nat).
  { rewrite Nat.even_spec. split.
    - intros [m ->]. rewrite Nat.mul_comm. apply Nat.mod_mul. lia.
    - intros E. exists (n / 2)%nat. rewrite (Nat.div_mod n 2) at 1 by lia. lia. }
  rewrite Ev. destruct (Nat.eqb_spec (2 * (n / 2)) n), (Nat.eqb_spec (2 * (n / 2)) 1); cbn [orb]; split; intros; try reflexivity; try discriminate; lia.
Qed.

(** * C69: binning *)
(** The crop of one axis: at most b - 1 samples go, as evenly as possible on the two sides, and what is left is divisible. *)
Theorem C69_crop n b : (0 < b)%nat -> let '(start, len) := bin_crop n b in
  (start + len <= n /\ n - len < b /\ len mod b = 0 /\ (start = n - start - len \/ start = n - start - len + 1))%nat.
Proof.
  intros Hb. unfold bin_crop. pose proof (Nat.mod_upper_bound n b ltac:(lia)) as B. pose proof (Nat.div_mod n b ltac:(lia)) as D.
  pose proof (Nat.div_mod (n mod b) 2 ltac:(lia)) as D2. pose proof (Nat.mod_upper_bound (n mod b) 2 ltac:(lia)) as B2.
  assert (Q : ((n - n mod b) mod b = 0)%nat).
  { replace (n - n mod b)%nat with ((n / b) * b)%nat by lia. apply Nat.mod_mul. lia. }
  destruct (Nat.ltb_spec 0 (n mod b)).
  - replace (n - n mod b / 2 - (n mod b - n mod b / 2))%nat with (n - n mod b)%nat by lia. repeat split; try lia; exact Q.
  - replace (n mod b)%nat with 0%nat in Q by lia. rewrite Nat.sub_0_r in Q. repeat split; try lia; exact Q.
Qed.
Lemma bin_crop_len n b : (0 < b)%nat -> snd (bin_crop n b) = (n / b * b)%nat.
Proof.
  intros Hb. unfold bin_crop. pose proof (Nat.div_mod n b ltac:(lia)) as D. pose proof (Nat.div_mod (n mod b) 2 ltac:(lia)) as D2.
  destruct (Nat.ltb_spec 0 (n mod b)); cbn [snd]; lia.
Qed.
Lemma ceil_div_mul q b : (0 < b)%nat -> ceil_div (q * b) b = q.
Proof.
  intros Hb. unfold ceil_div. replace (q * b + b - 1)%nat with (b - 1 + q * b)%nat by lia. rewrite Nat.div_add by lia. rewrite Nat.div_small by lia. lia.
Qed.
Lemma ceil_div_bounds n b : (0 < b)%nat -> (n <= ceil_div n b * b < n + b)%nat.
Proof.
  intros Hb. unfold ceil_div. pose proof (Nat.div_mod (n + b - 1) b ltac:(lia)). pose proof (Nat.mod_upper_bound (n + b - 1) b ltac:(lia)). lia.
Qed.
Lemma bsum_blocks qs bs : forall f, length qs = length bs ->
  bsum qs (fun l => bsum bs (fun d => f (block_idx bs l d))) = bsum (map2 Nat.mul qs bs) f.
Proof.
  revert bs. induction qs as [|q qs IH]; intros [|b bs] f H; simpl in *; try discriminate; [reflexivity|].
  rewrite rsum_mul. apply rsum_ext. intros i _.
  rewrite (bsum_rsum qs b (fun e l => bsum bs (fun d => f ((i * b + e)%nat :: block_idx bs l d)))). apply rsum_ext. intros e _. apply (IH bs (fun t => f ((i * b + e)%nat :: t))). lia.
Qed.
Lemma in_box_inb s l : length l = length s -> in_box s l = true <-> inb s l.
Proof.
  unfold in_box. revert l. induction s as [|n s IH]; intros [|i l] H; simpl in *; try discriminate.
  - split; [constructor|auto].
  - rewrite andb_true_iff, Nat.ltb_lt, inb_cons. rewrite IH by lia. tauto.
Qed.
(** zero padding does not change sums: summing over a larger box *)
Lemma bsum_zero_pad s t x : length t = length s -> (forall k, (k < length s)%nat -> (nth k s 0 <= nth k t 0)%nat) ->
  bsum t (zero_pad s x) = bsum s x.
Proof.
  unfold zero_pad. revert t x. induction s as [|n s IH]; intros [|m t] x H Hle; simpl in *; try discriminate; [reflexivity|].
  assert (Hm : (n <= m)%nat) by (apply (Hle 0%nat); lia). replace m with (n + (m - n))%nat by lia. rewrite rsum_app.
  rewrite (rsum_zero (m - n)).
  - rewrite Rplus_0_r. apply rsum_ext. intros i Hi. rewrite <- (IH t (fun l => x (i :: l))); [|lia|intros k Hk; apply (Hle (S k)); lia].
    apply bsum_ext. intros l _. unfold in_box. simpl. destruct (Nat.ltb_spec i n); [reflexivity|lia].
  - intros i Hi. rewrite (bsum_ext t _ (fun _ => 0)); [apply bsum_0|]. intros l _. unfold in_box. simpl.
    destruct (Nat.ltb_spec (n + i) n); [lia|reflexivity].
Qed.
Lemma map2_length {A B C} (f : A -> B -> C) l m : length l = length m -> length (map2 f l m) = length l.
Proof. revert m. induction l as [|a l IH]; intros [|b m] H; simpl in *; try discriminate; [reflexivity|]. now rewrite IH by lia. Qed.
Lemma nth_map2 (f : nat -> nat -> nat) l m k : length l = length m -> (k < length l)%nat -> nth k (map2 f l m) 0%nat = f (nth k l 0%nat) (nth k m 0%nat).
Proof. revert m k. induction l as [|a l IH]; intros [|b m] [|k] H Hk; simpl in *; try discriminate; try lia. apply IH; lia. Qed.
(** Block means conserve the total: the sum of the binned image times the block size is the sum of the image, with or
    without zero completion of the last blocks. *)
Theorem C69_total_conserved s bs x : length s = length bs -> (forall b, In b bs -> (0 < b)%nat) ->
  bsum (block_shape s bs) (block_reduce_mean s bs x) * INR (size bs) = bsum s x.
Proof.
  intros H Hb. unfold block_reduce_mean, block_shape.
  assert (P : 0 < INR (size bs)) by (apply lt_0_INR, size_pos, Hb).
  rewrite (bsum_ext _ _ (fun l => / INR (size bs) * bsum bs (fun d => zero_pad s x (block_idx bs l d)))) by (intros; unfold Rdiv; ring).
  rewrite bsum_scal. rewrite (bsum_blocks (map2 ceil_div s bs) bs (zero_pad s x)) by now rewrite map2_length.
  rewrite bsum_zero_pad.
  - field. lra.
  - rewrite map2_length by (rewrite map2_length; assumption). now apply map2_length.
  - intros k Hk. rewrite nth_map2; [|now rewrite map2_length|rewrite map2_length; lia]. rewrite nth_map2 by assumption.
    apply ceil_div_bounds. apply Hb, nth_In. lia.
Qed.
(** With auto_crop the mean of the binned image is the mean of the cropped image. *)
Definition amean (s : list nat) (x : arr) : R := bsum s x / INR (size s).
Lemma map_snd_crop s bs : length s = length bs -> (forall b, In b bs -> (0 < b)%nat) ->
  map snd (map2 bin_crop s bs) = map2 (fun n b => (n / b * b)%nat) s bs.
Proof.
  revert bs. induction s as [|n s IH]; intros [|b bs] H Hb; try discriminate; [reflexivity|]. cbn [map2 map].
  rewrite bin_crop_len by (apply Hb; now left). f_equal. apply IH; [simpl in H; lia|]. intros; apply Hb; now right.
Qed.
Lemma block_shape_crop s bs : length s = length bs -> (forall b, In b bs -> (0 < b)%nat) ->
  block_shape (map2 (fun n b => (n / b * b)%nat) s bs) bs = map2 Nat.div s bs.
Proof.
  unfold block_shape. revert bs. induction s as [|n s IH]; intros [|b bs] H Hb; try discriminate; [reflexivity|]. cbn [map2].
  rewrite ceil_div_mul by (apply Hb; now left). f_equal. apply IH; [simpl in H; lia|]. intros; apply Hb; now right.
Qed.
Lemma size_map2_div s bs : length s = length bs ->
  size (map2 (fun n b => (n / b * b)%nat) s bs) = (size (map2 Nat.div s bs) * size bs)%nat.
Proof.
  revert bs. induction s as [|n s IH]; intros [|b bs] H; try discriminate; [reflexivity|]. cbn [map2]. unfold size in *. cbn [fold_right].
  rewrite IH by (simpl in H; lia). lia.
Qed.
Theorem C69_mean_conserved s bs x : length s = length bs -> (forall b, In b bs -> (0 < b)%nat) ->
  let cs := map2 bin_crop s bs in let (s', x') := bin_imgs true s bs x in
  s' = map2 Nat.div s bs /\ amean s' x' = amean (map snd cs) (crop_nd (map fst cs) x).
Proof.
  intros H Hb cs. unfold bin_imgs. fold cs. assert (E : map snd cs = map2 (fun n b => (n / b * b)%nat) s bs) by now apply map_snd_crop.
  assert (S' : block_shape (map snd cs) bs = map2 Nat.div s bs) by (rewrite E; now apply block_shape_crop).
  split; [exact S'|]. unfold amean. rewrite S', E, size_map2_div by exact H. rewrite mult_INR.
  rewrite <- E. rewrite <- (C69_total_conserved (map snd cs) bs (crop_nd (map fst cs) x)); [|rewrite E; now rewrite map2_length|exact Hb].
  rewrite S'. assert (P : 0 < INR (size bs)) by (apply lt_0_INR, size_pos, Hb).
  unfold Rdiv. destruct (Req_dec (INR (size (map2 Nat.div s bs))) 0) as [Z|Z].
  - rewrite Z, Rmult_0_l, Rinv_0. ring.
  - field. split; lra.
Qed.
Lemma block_idx_inb s bs l d : length s = length bs -> inb (map2 Nat.div s bs) l -> inb bs d ->
  inb (map2 (fun n b => (n / b * b)%nat) s bs) (block_idx bs l d).
Proof.
  revert bs l d. induction s as [|n s IH]; intros [|b bs] l d H Hl Hd; try discriminate.
  - inversion Hd; subst. constructor.
  - destruct l as [|i l]; [inversion Hl|]. destruct d as [|e d]; [inversion Hd|]. cbn [map2 block_idx] in *.
    apply inb_cons in Hl as [Hi Hl]. apply inb_cons in Hd as [He Hd]. apply inb_cons. split; [nia|].
    apply IH; [simpl in H; lia|exact Hl|exact Hd].
Qed.
(** every binned value is exactly the mean of its own b1 x b2 x ... block of the cropped image (no padded zeros) *)
Theorem C69_block_means s bs x l : length s = length bs -> (forall b, In b bs -> (0 < b)%nat) -> inb (map2 Nat.div s bs) l ->
  snd (bin_imgs true s bs x) l = amean bs (fun d => x (map2 Nat.add (map fst (map2 bin_crop s bs)) (block_idx bs l d))).
Proof.
  intros H Hb Hl. unfold bin_imgs. cbn [snd]. unfold block_reduce_mean, amean. f_equal. apply bsum_ext. intros d Hd.
  rewrite map_snd_crop by assumption. unfold zero_pad. pose proof (block_idx_inb s bs l d H Hl Hd) as B.
  destruct (in_box _ _) eqn:Q; [reflexivity|]. exfalso. apply (in_box_inb _ _ (inb_length _ _ B)) in B. congruence.
Qed.
Theorem C69_constant_kept s bs c l : length s = length bs -> (forall b, In b bs -> (0 < b)%nat) -> inb (map2 Nat.div s bs) l ->
  snd (bin_imgs true s bs (fun _ => c)) l = c.
Proof.
  intros H Hb Hl. rewrite C69_block_means by assumption. unfold amean.
  rewrite (bsum_ext bs _ (fun _ => c * 1)) by (intros; ring). rewrite bsum_scal, bsum_1. field.
  assert (0 < INR (size bs)) by (apply lt_0_INR, size_pos, Hb). lra.
Qed.
(** REFUTED without auto_crop: the last block of a line whose length is not a multiple of the binning is completed with
    zeros, and the mean of a constant line drops there to the fraction of samples it really has. *)
Theorem C69_no_crop_refuted n b c : (0 < b)%nat -> (n mod b <> 0)%nat ->
  snd (bin_imgs false [n] [b] (fun _ => c)) [(n / b)%nat] = c * (INR (n mod b) / INR b) /\ INR (n mod b) / INR b < 1.
Proof.
  intros Hb Hm. pose proof (Nat.mod_upper_bound n b ltac:(lia)) as B. pose proof (Nat.div_mod n b ltac:(lia)) as D.
  assert (P : 0 < INR b) by (apply lt_0_INR; lia). split.
  - unfold bin_imgs. cbn [snd]. unfold block_reduce_mean, zero_pad, in_box. cbn [bsum block_idx combine forallb fst snd size fold_right].
    rewrite Nat.mul_1_r. replace b with (n mod b + (b - n mod b))%nat at 1 by lia. rewrite rsum_app.
    rewrite (rsum_ext (n mod b) _ (fun _ => c)).
    2:{ intros i Hi. destruct (Nat.ltb_spec (n / b * b + i) n); [reflexivity|lia]. }
    rewrite (rsum_zero (b - n mod b)).
    2:{ intros i Hi. destruct (Nat.ltb_spec (n / b * b + (n mod b + i)) n); [lia|reflexivity]. }
    rewrite rsum_const. field. lra.
  - apply Rmult_lt_reg_r with (INR b); [exact P|]. unfold Rdiv. rewrite Rmult_assoc, Rinv_l, Rmult_1_r, Rmult_1_l by lra. now apply lt_INR.
Qed.
Example C69_example : bin_crop 11 4 = (2, 8)%nat /\ bin_crop 8 4 = (0, 8)%nat /\ map2 Nat.div [11%nat; 8%nat] [4%nat; 1%nat] = [2%nat; 8%nat].
Proof. repeat split. Qed.

(** * C70: background from the margins *)
(** With both margins fitting in the row and a right margin that is not zero, the background is the mean over the margin
    samples (and, for 3-D data, over v): a constant margin gives that constant. *)
Lemma margin_mean_eq n m0 m1 x : (0 < m1)%nat -> (m0 + m1 <= n)%nat ->
  margin_mean n m0 m1 x = rsum (m0 + m1) (fun i => x (fit_x n m0 m1 i)) / INR (m0 + m1).
Proof.
  intros H1 H. unfold margin_mean, head_sum, tail_sum. destruct (Nat.eqb_spec m1 0); [lia|]. rewrite !Nat.min_l by lia. f_equal.
  rewrite rsum_app. f_equal; apply rsum_ext; intros i Hi; unfold fit_x.
  - destruct (Nat.ltb_spec i m0); [reflexivity|lia].
  - destruct (Nat.ltb_spec (m0 + i) m0); [lia|]. f_equal. lia.
Qed.
Theorem C70_mean_of_margins nv n m0 m1 data w : (0 < m1)%nat -> margin_check n m0 m1 = inr tt ->
  background_const nv n m0 m1 data w
  = match nv with
    | None => rsum (m0 + m1) (fun i => data 0%nat w (fit_x n m0 m1 i)) / INR (m0 + m1)
    | Some k => rsum k (fun v => rsum (m0 + m1) (fun i => data v w (fit_x n m0 m1 i))) / INR (k * (m0 + m1))
    end.
Proof.
  intros H1 Hc. unfold margin_check in Hc. destruct (Nat.ltb_spec n (m0 + m1)); [discriminate|].
  unfold background_const. destruct nv as [k|]; [|now apply margin_mean_eq].
  rewrite (rsum_ext _ _ (fun v => / INR (m0 + m1) * rsum (m0 + m1) (fun i => data v w (fit_x n m0 m1 i)))).
  2:{ intros v _. rewrite margin_mean_eq by lia. unfold Rdiv. ring. }
  rewrite rsum_scal, mult_INR. unfold Rdiv. rewrite Rinv_mult. ring.
Qed.
Lemma fit_x_margin n m0 m1 i : (m0 + m1 <= n)%nat -> (i < m0 + m1)%nat -> (fit_x n m0 m1 i < m0 \/ n - m1 <= fit_x n m0 m1 i < n)%nat.
Proof. intros H Hi. unfold fit_x. destruct (Nat.ltb_spec i m0); lia. Qed.
Theorem C70_constant n m0 m1 data w c nv : (0 < m1)%nat -> margin_check n m0 m1 = inr tt -> nv <> Some 0%nat ->
  (forall v u, (u < m0 \/ n - m1 <= u < n)%nat -> data v w u = c) -> background_const nv n m0 m1 data w = c.
Proof.
  intros H1 Hc Hv H. rewrite C70_mean_of_margins by assumption. unfold margin_check in Hc. destruct (Nat.ltb_spec n (m0 + m1)) as [|L]; [discriminate|].
  assert (E : forall v, rsum (m0 + m1) (fun i => data v w (fit_x n m0 m1 i)) = INR (m0 + m1) * c).
  { intros v. rewrite (rsum_ext _ _ (fun _ => c)) by (intros i Hi; apply H; now apply fit_x_margin). apply rsum_const. }
  assert (P : INR (m0 + m1) <> 0) by (apply not_0_INR; lia).
  destruct nv as [k|].
  - rewrite (rsum_ext _ _ (fun _ => INR (m0 + m1) * c)) by (intros; apply E). rewrite rsum_const, mult_INR. field.
    split; [exact P|]. apply not_0_INR. intros ->. now apply Hv.
  - rewrite E. now field.
Qed.
(** REFUTED for a right margin of zero: data[..., -0:] is the whole row; the background of a constant row of length n
    comes out (m0 + n)/m0 times too large. *)
Theorem C70_zero_right_margin_refuted n m0 c w : (0 < m0 <= n)%nat -> margin_check n m0 0 = inr tt
  /\ background_const None n m0 0 (fun _ _ _ => c) w = c * (INR (m0 + n) / INR m0)
  /\ (0 < c -> c < background_const None n m0 0 (fun _ _ _ => c) w).
Proof.
  intros H. assert (P : 0 < INR m0) by (apply lt_0_INR; lia). assert (Q : 0 < INR n) by (apply lt_0_INR; lia).
  assert (E : background_const None n m0 0 (fun _ _ _ => c) w = c * (INR (m0 + n) / INR m0)).
  { unfold background_const, margin_mean, head_sum, tail_sum. simpl Nat.eqb. cbv iota. rewrite Nat.min_l by lia. rewrite !rsum_const, Nat.add_0_r, plus_INR. field. lra. }
  split; [unfold margin_check; destruct (Nat.ltb_spec n (m0 + 0)); [lia|reflexivity]|]. split; [exact E|].
  intros Hc. rewrite E. rewrite <- (Rmult_1_r c) at 1. apply Rmult_lt_compat_l; [exact Hc|].
  apply Rmult_lt_reg_r with (INR m0); [exact P|]. unfold Rdiv. rewrite Rmult_assoc, Rinv_l, Rmult_1_r, Rmult_1_l by lra. rewrite plus_INR. lra.
Qed.
(** Polynomial backgrounds: a polynomial of degree <= order is recovered exactly when there are more margin samples than
    the order.  First: a polynomial with deg + 1 coefficients and more distinct roots than deg is zero. *)
Fixpoint pdiv (cs : list R) (a : R) : list R := match cs with [] => [] | c :: r => match r with [] => [] | _ => peval r a :: pdiv r a end end.
Lemma pdiv_length cs a : length (pdiv cs a) = (length cs - 1)%nat.
Proof. induction cs as [|c [|d r] IH]; try reflexivity. change (pdiv (c :: d :: r) a) with (peval (d :: r) a :: pdiv (d :: r) a). cbn [length] in *. lia. Qed.
Lemma pdiv_spec cs a x : peval cs x = peval cs a + (x - a) * peval (pdiv cs a) x.
Proof.
  induction cs as [|c [|d r] IH]; [simpl; ring|simpl; ring|].
  change (pdiv (c :: d :: r) a) with (peval (d :: r) a :: pdiv (d :: r) a).
  change (peval (c :: d :: r) x) with (c + x * peval (d :: r) x). change (peval (c :: d :: r) a) with (c + a * peval (d :: r) a).
  change (peval (peval (d :: r) a :: pdiv (d :: r) a) x) with (peval (d :: r) a + x * peval (pdiv (d :: r) a) x).
  rewrite IH. ring.
Qed.
Lemma poly_roots k : forall cs (xs : nat -> R), length cs = k -> (forall i j, (i < j < k)%nat -> xs i <> xs j) ->
  (forall i, (i < k)%nat -> peval cs (xs i) = 0) -> forall x, peval cs x = 0.
Proof.
  induction k as [|k IH]; intros cs xs Hl Hd Hr x.
  - destruct cs; [reflexivity|discriminate].
  - rewrite (pdiv_spec cs (xs k) x). rewrite (Hr k) by lia.
    rewrite (IH (pdiv cs (xs k)) xs); [ring|rewrite pdiv_length; lia|intros; apply Hd; lia|].
    intros i Hi. pose proof (pdiv_spec cs (xs k) (xs i)) as E. rewrite (Hr i), (Hr k) in E by lia.
    assert (N : xs i - xs k <> 0) by (apply Rminus_eq_contra, Hd; lia).
    assert (E' : (xs i - xs k) * peval (pdiv cs (xs k)) (xs i) = 0) by lra. apply Rmult_integral in E'. tauto.
Qed.
Fixpoint psub (a b : list R) : list R := match a, b with x :: a', y :: b' => (x - y) :: psub a' b' | _, _ => [] end.
Lemma psub_spec a b x : length a = length b -> peval (psub a b) x = peval a x - peval b x.
Proof. revert b. induction a as [|u a IH]; intros [|v b] H; simpl in *; try discriminate; [ring|]. rewrite IH by lia. ring. Qed.
Lemma psub_length a b : length a = length b -> length (psub a b) = length a.
Proof. revert b. induction a as [|u a IH]; intros [|v b] H; simpl in *; try discriminate; [reflexivity|]. now rewrite IH by lia. Qed.
Lemma fit_x_inj n m0 m1 i j : (m0 + m1 <= n)%nat -> (i < j < m0 + m1)%nat -> fit_x n m0 m1 i <> fit_x n m0 m1 j.
Proof. intros H Hij. unfold fit_x. destruct (Nat.ltb_spec i m0), (Nat.ltb_spec j m0); lia. Qed.
Theorem C70_polynomial_recovered nv n m0 m1 deg data w cs ps u :
  margin_check n m0 m1 = inr tt -> (deg < m0 + m1)%nat ->
  polyfit_contract deg (m0 + m1) (fun i => INR (fit_x n m0 m1 i)) (fit_y nv n m0 m1 data w) cs ->
  length ps = S deg -> nv <> Some 0%nat ->
  (forall v u, (u < m0 \/ n - m1 <= u < n)%nat -> data v w u = peval ps (INR u)) ->
  peval cs (INR u) = peval ps (INR u).
Proof.
  intros Hc Hd [Lc Hmin] Lp Hv Hdata. unfold margin_check in Hc. destruct (Nat.ltb_spec n (m0 + m1)) as [|L]; [discriminate|].
  assert (Y : forall i, (i < m0 + m1)%nat -> fit_y nv n m0 m1 data w i = peval ps (INR (fit_x n m0 m1 i))).
  { intros i Hi. unfold fit_y. pose proof (fit_x_margin n m0 m1 i L Hi) as M. destruct nv as [k|]; [|now apply Hdata].
    rewrite (rsum_ext _ _ (fun _ => peval ps (INR (fit_x n m0 m1 i)))) by (intros; now apply Hdata). rewrite rsum_const. field.
    apply not_0_INR. intros ->. now apply Hv. }
  assert (Z : rsum (m0 + m1) (fun i => (peval cs (INR (fit_x n m0 m1 i)) - fit_y nv n m0 m1 data w i) ^ 2) = 0).
  { apply Rle_antisym; [|apply rsum_nonneg; intros; apply pow2_ge_0]. eapply Rle_trans; [apply (Hmin ps Lp)|].
    right. apply rsum_zero. intros i Hi. rewrite Y by exact Hi. ring. }
  assert (Eq : forall i, (i < m0 + m1)%nat -> peval (psub cs ps) (INR (fit_x n m0 m1 i)) = 0).
  { intros i Hi. rewrite psub_spec by congruence. pose proof (rsum_nonneg_zero _ _ (fun j _ => pow2_ge_0 _) Z i Hi) as Q. cbv beta in Q.
    rewrite Y in Q by exact Hi. apply Rsqr_0_uniq. unfold Rsqr. lra. }
  pose proof (poly_roots (S deg) (psub cs ps) (fun i => INR (fit_x n m0 m1 i))) as PR.
  assert (peval (psub cs ps) (INR u) = 0).
  { apply PR.
    - rewrite psub_length; congruence.
    - intros i j Hij E. apply INR_eq in E. revert E. apply fit_x_inj; lia.
    - intros i Hi. apply Eq. lia. }
  rewrite psub_spec in H by congruence. lra.
Qed.
Example C70_fit_exists : polyfit_contract 1 4 (fun i => INR (fit_x 10 2 2 i)) (fit_y None 10 2 2 (fun _ _ u => 3 + 2 * INR u) 0) [3; 2].
Proof.
  split; [reflexivity|]. intros ds _. rewrite (rsum_zero 4 (fun i => _)).
  - apply rsum_nonneg. intros; apply pow2_ge_0.
  - intros i _. unfold fit_y. simpl. ring.
Qed.

(** * C68: SNIP background *)
Lemma snip_kern_raw_nonneg W d : 0 <= snip_kern_raw W d.
Proof. unfold snip_kern_raw. destruct (forallb _ _); lra. Qed.
Lemma bsum_pos s f l : inb s l -> (forall l, inb s l -> 0 <= f l) -> 0 < f l -> 0 < bsum s f.
Proof.
  revert f l. induction s as [|n s IH]; intros f l Hl H P; [inversion Hl; subst; exact P|].
  destruct l as [|i l]; [inversion Hl|]. apply inb_cons in Hl as [Hi Hl]. simpl. apply rsum_pos with i; [exact Hi| |].
  - intros j Hj. apply bsum_nonneg. intros m Hm. apply H. now apply inb_cons.
  - apply (IH (fun t => f (i :: t)) l Hl); [|exact P]. intros m Hm. apply H. now apply inb_cons.
Qed.
Lemma inb_repeat W k d : length d = k -> Forall (fun e => (e < W)%nat) d -> inb (repeat W k) d.
Proof. revert d. induction k as [|k IH]; intros [|e d] H F; simpl in *; try discriminate; [constructor|]. inversion F; subst. apply inb_cons. split; [assumption|]. apply IH; [lia|assumption]. Qed.
(** the kernel keeps at least one corner: its sum is positive for every window and at least one kernel axis *)
Lemma snip_kern_sum_pos W k : (0 < W)%nat -> (0 < k)%nat -> 0 < snip_kern_sum W k.
Proof.
  intros HW Hk. unfold snip_kern_sum. apply (bsum_pos _ _ (repeat 0%nat k)).
  - apply inb_repeat; [apply repeat_length|]. apply Forall_forall. intros e He. apply repeat_spec in He. lia.
  - intros; apply snip_kern_raw_nonneg.
  - destruct k; [lia|]. unfold snip_kern_raw. simpl. lra.
Qed.
Lemma conv_idx_inb ks W l d : Forall (fun n => (0 < n)%nat) ks -> length l = length ks -> length d = length ks -> inb ks (conv_idx ks W l d).
Proof.
  revert l d. induction ks as [|n ks IH]; intros [|i l] [|e d] F Hl Hd; simpl in *; try discriminate; [constructor|].
  inversion F; subst. apply inb_cons. split; [unfold clamp_idx; lia|]. apply IH; [assumption|lia|lia].
Qed.
(** the convolution is a weighted average *)
Lemma snip_conv_linear ks W x y a b l : snip_conv ks W (fun l => a * x l + b * y l) l = a * snip_conv ks W x l + b * snip_conv ks W y l.
Proof. unfold snip_conv. rewrite <- !bsum_scal, <- bsum_plus. apply bsum_ext. intros; ring. Qed.
Lemma snip_conv_1 ks W l : (0 < W)%nat -> (0 < length ks)%nat -> snip_conv ks W (fun _ => 1) l = 1.
Proof.
  intros HW Hk. unfold snip_conv, snip_kern. pose proof (snip_kern_sum_pos W (length ks) HW Hk) as P.
  rewrite (bsum_ext _ _ (fun d => / snip_kern_sum W (length ks) * snip_kern_raw W d)) by (intros; unfold Rdiv; ring).
  rewrite bsum_scal. fold (snip_kern_sum W (length ks)). field. lra.
Qed.
Lemma snip_conv_mono ks W x y l : (0 < W)%nat -> (0 < length ks)%nat -> Forall (fun n => (0 < n)%nat) ks -> length l = length ks ->
  (forall m, inb ks m -> x m <= y m) -> snip_conv ks W x l <= snip_conv ks W y l.
Proof.
  intros HW Hk F Hl H. unfold snip_conv. apply bsum_le. intros d Hd. apply Rmult_le_compat_l.
  - apply Rdiv_le_0_compat; [apply snip_kern_raw_nonneg|now apply snip_kern_sum_pos].
  - apply H. apply conv_idx_inb; [exact F|exact Hl|]. rewrite (inb_length _ _ Hd). apply repeat_length.
Qed.
Section Snip.
Variables (ks : list nat) (W : nat).
Hypothesis HW : (0 < W)%nat.
Hypothesis Hk : (0 < length ks)%nat.
Hypothesis Hpos : Forall (fun n => (0 < n)%nat) ks.
(** More iterations never increase the background; in particular it never exceeds the image. *)
Theorem C68_antitone_iterations it x l : snip_iter ks W (S it) x l <= snip_iter ks W it x l.
Proof. simpl. unfold snip_step. apply Rmin_r. Qed.
Theorem C68_below_image it x l : snip_iter ks W it x l <= x l.
Proof. induction it as [|it IH]; [simpl; lra|]. eapply Rle_trans; [apply C68_antitone_iterations|exact IH]. Qed.
(** A larger image never has a smaller background. *)
Theorem C68_monotone it x y l : inb ks l -> (forall m, inb ks m -> x m <= y m) -> snip_iter ks W it x l <= snip_iter ks W it y l.
Proof.
  intros Hl H. revert l Hl. induction it as [|it IH]; intros l Hl; simpl; [now apply H|]. unfold snip_step.
  pose proof (snip_conv_mono ks W (snip_iter ks W it x) (snip_iter ks W it y) l HW Hk Hpos (inb_length _ _ Hl) IH) as C.
  specialize (IH l Hl). unfold Rmin. repeat destruct (Rle_dec _ _); lra.
Qed.
(** Adding a constant to the image, or scaling it by a non-negative factor, does the same to the background. *)
Theorem C68_affine_equivariant it x a c l : 0 <= a -> snip_iter ks W it (fun m => a * x m + c) l = a * snip_iter ks W it x l + c.
Proof.
  intros Ha. revert l. induction it as [|it IH]; intros l; simpl; [reflexivity|]. unfold snip_step. rewrite IH.
  assert (E : snip_conv ks W (snip_iter ks W it (fun m => a * x m + c)) l = a * snip_conv ks W (snip_iter ks W it x) l + c).
  { replace (snip_conv ks W (snip_iter ks W it (fun m => a * x m + c)) l)
      with (snip_conv ks W (fun m => a * snip_iter ks W it x m + c * (fun _ => 1) m) l).
    - rewrite snip_conv_linear, snip_conv_1 by assumption. ring.
    - unfold snip_conv. apply bsum_ext. intros d _. rewrite IH. ring. }
  rewrite E. set (p := snip_conv ks W (snip_iter ks W it x) l). set (q := snip_iter ks W it x l).
  unfold Rmin. destruct (Rle_dec p q), (Rle_dec (a * p + c) (a * q + c)); try nra.
Qed.
(** It never undershoots any lower bound of the image (its minimum). *)
Theorem C68_above_minimum it x l m : inb ks l -> (forall p, inb ks p -> m <= x p) -> m <= snip_iter ks W it x l.
Proof.
  intros Hl H. replace m with (snip_iter ks W it (fun _ => m) l).
  - apply C68_monotone; assumption.
  - pose proof (C68_affine_equivariant it (fun _ => 0) 0 m l (Rle_refl 0)) as E. rewrite Rmult_0_l, Rplus_0_l in E.
    refine (eq_trans _ E). clear E. revert l Hl. induction it as [|it IH]; intros l Hl; simpl; [ring|]. unfold snip_step. f_equal.
    + unfold snip_conv. apply bsum_ext. intros d Hd. f_equal. apply IH. apply conv_idx_inb; [exact Hpos|now apply inb_length|].
      rewrite (inb_length _ _ Hd). apply repeat_length.
    + now apply IH.
Qed.
End Snip.
(** The same for the function itself on floating-point images, whatever the number of kernel axes. *)
Theorem C68_snip s kd W it x r l : snip DFloat s kd W it x = inr r -> (0 < W)%nat -> Forall (fun n => (0 < n)%nat) s -> inb s l ->
  r l <= x l /\ (forall m, (forall p, inb s p -> m <= x p) -> m <= r l).
Proof.
  unfold snip. set (k := match kd with None => length s | Some k => k end). destruct ((length s <? k) || (k <? 1))%nat%bool eqn:Q.
  - destruct kd; [discriminate|]. intros E; inversion E; subst. intros. split; [lra|]. intros m Hm. now apply Hm.
  - apply orb_false_iff in Q as [Q1 Q2]. apply Nat.ltb_ge in Q1, Q2. intros E HW F Hl; inversion E; subst; clear E.
    set (lead := (length s - k)%nat). pose proof (inb_length _ _ Hl) as Ll.
    assert (Lks : length (skipn lead s) = k) by (rewrite skipn_length; unfold lead; lia).
    assert (Fk : Forall (fun n => (0 < n)%nat) (skipn lead s)).
    { apply Forall_forall. intros n Hn. rewrite Forall_forall in F. apply F. rewrite <- (firstn_skipn lead s). apply in_app_iff. now right. }
    split.
    + eapply Rle_trans; [apply C68_below_image|]. rewrite firstn_skipn. lra.
    + intros m H.
      assert (Hl2 : inb (skipn lead s) (skipn lead l) /\ inb (firstn lead s) (firstn lead l)).
      { unfold inb in *. generalize lead. clear - Hl. intros lead. revert s l Hl. induction lead as [|n IH]; intros s l Hl; [split; [exact Hl|constructor]|].
        destruct Hl; [split; constructor|]. simpl. destruct (IH _ _ Hl). split; [assumption|now constructor]. }
      destruct Hl2 as [Hl2 Hl1]. apply C68_above_minimum; try assumption; [lia|].
      intros p Hp. apply H. rewrite <- (firstn_skipn lead s). now apply Forall2_app.
Qed.
(** REFUTED for integer images: the in-place division of the integer kernel raises TypeError. *)
Theorem C68_integer_image_refuted s kd W it x : (0 < length s)%nat -> match kd with Some k => (1 <= k <= length s)%nat | None => True end ->
  snip DInt s kd W it x = inl TypeError.
Proof.
  intros H Hk. unfold snip. set (k := match kd with None => length s | Some k => k end).
  assert (1 <= k <= length s)%nat by (unfold k; destruct kd; lia).
  destruct (Nat.ltb_spec (length s) k), (Nat.ltb_spec k 1); try lia. reflexivity.
Qed.
(** and for the projection-wise wrapper *)
Theorem C68_background_from_snip nv nu it data v w u m : (v < nv)%nat -> (u < nu)%nat ->
  background_from_snip nv nu it data v w u <= data v w u
  /\ ((forall a b, (a < nv)%nat -> (b < nu)%nat -> m <= data a w b) -> m <= background_from_snip nv nu it data v w u).
Proof.
  intros Hv Hu. unfold background_from_snip. split; [apply (C68_below_image [nv; nu] 3 it)|].
  intros H. apply C68_above_minimum; try (simpl; lia).
  - repeat (constructor; [lia|]); constructor.
  - apply inb_cons. split; [exact Hv|]. apply inb_cons. split; [exact Hu|constructor].
  - intros p Hp. destruct p as [|a p]; [inversion Hp|]. apply inb_cons in Hp as [Ha Hp]. destruct p as [|b p]; [inversion Hp|]. apply inb_cons in Hp as [Hb Hp].
    inversion Hp; subst. now apply H.
Qed.
(** a peak of one sample on a flat line is removed in one iteration: the bound is really active *)
Example C68_example : snip_iter [3%nat] 3 1 (fun l => match l with [1%nat] => 5 | _ => 1 end) [1%nat] = 1.
Proof.
  simpl. unfold snip_step, snip_conv, snip_kern, snip_kern_sum. cbn [length repeat bsum rsum]. unfold snip_kern_raw, interior.
  cbn [forallb Nat.leb Nat.ltb andb Nat.sub conv_idx clamp_idx]. change (clamp_idx 3 3 1 0) with 2%nat. change (clamp_idx 3 3 1 1) with 1%nat. change (clamp_idx 3 3 1 2) with 0%nat.
  rewrite Rmin_left; lra.
Qed.

(** * C125: de-striping *)
(** The padded length is the smallest multiple of 2^level that holds the data; the padding is split evenly; cropping by the
    same amounts gives the original length back. *)
Theorem C125_padding level n : let (b, a) := destripe_pad level n in
  ((b + n + a) mod 2 ^ level = 0 /\ b + a < 2 ^ level /\ (b = a \/ b = a + 1) /\ (b + n + a) - a - b = n)%nat.
Proof.
  unfold destripe_pad, destripe_target. assert (P : (0 < 2 ^ level)%nat) by (apply Nat.neq_0_lt_0, Nat.pow_nonzero; lia).
  pose proof (ceil_div_bounds n (2 ^ level) P) as B. set (t := (ceil_div n (2 ^ level) * 2 ^ level)%nat) in *.
  pose proof (Nat.div_mod (t - n) 2 ltac:(lia)) as D. pose proof (Nat.mod_upper_bound (t - n) 2 ltac:(lia)) as M.
  set (h := ((t - n) / 2)%nat) in *. repeat split; try lia.
  replace (t - n - h + n + h)%nat with t by lia. unfold t. apply Nat.mod_mul. lia.
Qed.
(** The Fourier filter removes exactly the constant (stripe) component, attenuates every other one and never amplifies. *)
Theorem C125_filter sigma n k : sigma <> 0 -> (0 < n)%nat -> destripe_filter sigma n 0 = 0 /\ ((0 < k)%nat -> 0 < destripe_filter sigma n k < 1).
Proof.
  intros Hs Hn. unfold destripe_filter. split.
  - simpl. unfold Rdiv. rewrite Rmult_0_l, Rmult_0_l, Ropp_0, Rmult_0_l, exp_0. ring.
  - intros Hk. assert (P : 0 < INR k / INR n) by (apply Rdiv_lt_0_compat; apply lt_0_INR; assumption).
    assert (Q : 0 < 2 * sigma ^ 2) by (assert (0 < sigma ^ 2) by (simpl; rewrite Rmult_1_r; exact (Rsqr_pos_lt sigma Hs)); lra).
    assert (E : - (INR k / INR n) ^ 2 / (2 * sigma ^ 2) < 0).
    { unfold Rdiv at 1. assert (0 < (INR k / INR n) ^ 2) by (apply pow_lt; exact P). pose proof (Rinv_0_lt_compat _ Q). nra. }
    pose proof (exp_pos (- (INR k / INR n) ^ 2 / (2 * sigma ^ 2))) as E1. apply exp_increasing in E. rewrite exp_0 in E. lra.
Qed.
(** REFUTED for an angle axis other than the second last: the filter is always aligned with the second last axis, and the
    call raises unless that axis happens to have n//2 + 1 samples. *)
Theorem C125_angle_axis_refuted n m ax :
  (ax = 2%nat -> destripe_filter_check n m ax = inr tt)
  /\ (ax <> 2%nat -> (2 <= n)%nat -> (destripe_filter_check n m ax = inr tt <-> m = (n / 2 + 1)%nat)).
Proof.
  unfold destripe_filter_check. split.
  - intros ->. cbn [Nat.eqb]. now rewrite Nat.eqb_refl.
  - intros Ha Hn. destruct (Nat.eqb_spec ax 2); [contradiction|].
    assert (1 <= n / 2)%nat by (apply Nat.div_le_lower_bound; lia).
    destruct (Nat.eqb_spec (n / 2 + 1) m), (Nat.eqb_spec (n / 2 + 1) 1); cbn [orb]; split; intros; try reflexivity; try discriminate; lia.
Qed.

(** * C126: eigen flats *)
(** The two returned stacks multiply to the dark-corrected input, pixel by pixel, for every decomposition numpy may return:
    nothing of the data is lost in the split. *)
Theorem C126_product eps dark npix m r stack U sigma Vh i l : 0 < eps -> (0 < npix)%nat -> (0 < m)%nat ->
  svd_contract npix m r (fun l i => ln (eigen_input eps dark (stack i l) l)) U sigma Vh ->
  (forall i l, dark = None -> 0 < stack i l) -> (i < m)%nat -> (l < npix)%nat ->
  eigen_projs r U sigma Vh i l * eigen_flats U sigma Vh i l = eigen_input eps dark (stack i l) l.
Proof.
  intros He Hp Hm [Hr H] Hs Hi Hl. unfold eigen_projs, eigen_flats. rewrite <- exp_plus.
  assert (Pos : 0 < eigen_input eps dark (stack i l) l).
  { unfold eigen_input. destruct dark; [|now apply Hs]. eapply Rlt_le_trans; [exact He|apply Rmax_r]. }
  rewrite <- (exp_ln _ Pos) at 1. f_equal. rewrite (H l i Hl Hi). destruct r as [|r]; [lia|].
  rewrite rsum_S_l. replace (S r - 1)%nat with r by lia. ring.
Qed.
(** spelled out: with darks, the stack minus the dark where that is at least [eps], and [eps] elsewhere; without, the stack itself *)
Theorem C126_corrected eps npix m r stack U sigma Vh i l : 0 < eps -> (0 < npix)%nat -> (0 < m)%nat -> (i < m)%nat -> (l < npix)%nat ->
  (forall d, svd_contract npix m r (fun l i => ln (eigen_input eps (Some d) (stack i l) l)) U sigma Vh ->
    (eps <= stack i l - d l -> eigen_projs r U sigma Vh i l * eigen_flats U sigma Vh i l = stack i l - d l) /\
    (stack i l - d l <= eps -> eigen_projs r U sigma Vh i l * eigen_flats U sigma Vh i l = eps)) /\
  ((forall i l, 0 < stack i l) -> svd_contract npix m r (fun l i => ln (eigen_input eps None (stack i l) l)) U sigma Vh ->
    eigen_projs r U sigma Vh i l * eigen_flats U sigma Vh i l = stack i l).
Proof.
  intros He Hp Hm Hi Hl. split.
  - intros d H. rewrite (C126_product eps (Some d) npix m r stack U sigma Vh i l He Hp Hm H ltac:(discriminate) Hi Hl). unfold eigen_input.
    split; intros C; [apply Rmax_left|apply Rmax_right]; assumption.
  - intros Hs H. rewrite (C126_product eps None npix m r stack U sigma Vh i l He Hp Hm H ltac:(auto) Hi Hl). reflexivity.
Qed.
(** Both stacks are positive, and with a dark they are bounded below by a positive product whatever the noise. *)
Theorem C126_positive r U sigma Vh i l : 0 < eigen_projs r U sigma Vh i l /\ 0 < eigen_flats U sigma Vh i l.
Proof. split; apply exp_pos. Qed.
Example C126_svd_exists : svd_contract 2 2 2 (fun l i => INR (l + i)) (fun l k => delta l k) (fun _ => 1) (fun k i => INR (k + i)).
Proof.
  split; [reflexivity|]. intros l i Hl Hi. cbn [rsum]. destruct l as [|[|l]]; [| |lia]; unfold delta; simpl Nat.eqb; cbv iota; ring.
Qed.
