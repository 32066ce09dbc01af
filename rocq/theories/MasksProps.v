(** C207: binning a collection of masks. *)
From Coq Require Import Reals Lra Lia List ZArith Bool String.
From Verif Require Import Sums PyErr Arrays ProcPreModel ProcPreProps StructIllumModel MasksModel.
Import ListNotations.
Open Scope R_scope.

(** ** Helpers *)
Lemma in_box_app s t k l : List.length k = List.length s -> in_box (s ++ t) (k ++ l) = (in_box s k && in_box t l)%bool.
Proof.
  unfold in_box. revert k. induction s as [|n s IH]; intros [|i k] H; cbn [List.length] in H; try lia; [reflexivity|].
  cbn [app combine forallb fst snd]. rewrite IH by lia. now rewrite andb_assoc.
Qed.
Lemma block_idx_app n bs k l d : List.length k = n ->
  block_idx (repeat 1%nat n ++ bs) (k ++ l) (repeat 0%nat n ++ d) = k ++ block_idx bs l d.
Proof.
  revert k. induction n as [|n IH]; intros [|i k] H; cbn [List.length] in H; try lia; [reflexivity|].
  cbn [repeat app block_idx]. rewrite IH by lia. f_equal. lia.
Qed.
Lemma bsum_ones n bs f : bsum (repeat 1%nat n ++ bs) f = bsum bs (fun d => f (repeat 0%nat n ++ d)).
Proof.
  revert f. induction n as [|n IH]; intros f; [reflexivity|]. cbn [repeat app bsum rsum]. rewrite Rplus_0_l. apply (IH (fun l => f (0%nat :: l))).
Qed.
Lemma size_ones n bs : size (repeat 1%nat n ++ bs) = size bs.
Proof. induction n as [|n IH]; [reflexivity|]. cbn [repeat app]. unfold size in *. cbn [fold_right]. lia. Qed.
Lemma map2_app {A B C} (f : A -> B -> C) a a' b b' : List.length a = List.length b -> map2 f (a ++ a') (b ++ b') = map2 f a b ++ map2 f a' b'.
Proof. revert b. induction a as [|x a IH]; intros [|y b] H; cbn [List.length] in H; try lia; [reflexivity|]. cbn [app map2]. now rewrite IH by lia. Qed.
Lemma map2_ones (lead : list nat) : map2 ceil_div lead (repeat 1%nat (List.length lead)) = lead.
Proof.
  induction lead as [|n l IH]; [reflexivity|]. cbn [List.length repeat map2]. rewrite IH. f_equal. unfold ceil_div. rewrite Nat.div_1_r. lia.
Qed.
Lemma last_two_app (lead : list nat) V U b : last_two (List.length (lead ++ [V; U])) b = repeat 1%nat (List.length lead) ++ [b; b].
Proof. unfold last_two. rewrite app_length. cbn [List.length]. now replace (List.length lead + 2 - 2)%nat with (List.length lead) by lia. Qed.
Lemma block_shape_last lead V U b : block_shape (lead ++ [V; U]) (last_two (List.length (lead ++ [V; U])) b) = lead ++ [ceil_div V b; ceil_div U b].
Proof.
  unfold block_shape. rewrite last_two_app. rewrite map2_app by now rewrite repeat_length. now rewrite map2_ones.
Qed.
(** one pixel of a binned mask: the sum of its block, completed with zeros *)
Definition padded (V U : nat) (x : nat -> nat -> R) (i j : nat) : R := if ((i <? V) && (j <? U))%nat%bool then x i j else 0.
Lemma binned_pixel lead V U b m k i j : inb lead k ->
  block_reduce_mean (lead ++ [V; U]) (last_two (List.length (lead ++ [V; U])) b) m (k ++ [i; j]) =
  rsum b (fun a => rsum b (fun c => padded V U (fun p q => m (k ++ [p; q])) (i * b + a) (j * b + c))) / INR (b * b).
Proof.
  intros Hk. pose proof (inb_length _ _ Hk) as Lk. unfold block_reduce_mean. rewrite last_two_app, bsum_ones, size_ones. cbn [bsum].
  replace (size [b; b]) with (b * b)%nat by (unfold size; cbn [fold_right]; lia). f_equal.
  apply rsum_ext. intros a _. apply rsum_ext. intros c _. unfold zero_pad. rewrite block_idx_app by exact Lk. cbn [block_idx].
  rewrite in_box_app by exact Lk. assert (E : in_box lead k = true) by (apply in_box_inb; assumption). rewrite E. cbn [andb].
  unfold in_box, padded. cbn [combine forallb fst snd]. rewrite andb_true_r. reflexivity.
Qed.
Lemma sum_blocks n b f : (0 < b)%nat ->
  rsum (ceil_div n b) (fun i => rsum b (fun a => if (i * b + a <? n)%nat then f (i * b + a)%nat else 0)) = rsum n f.
Proof.
  intros Hb. rewrite <- (rsum_mul (ceil_div n b) b (fun t => if (t <? n)%nat then f t else 0)).
  pose proof (ceil_div_bounds n b Hb) as B. replace (ceil_div n b * b)%nat with (n + (ceil_div n b * b - n))%nat by lia.
  rewrite rsum_app, (rsum_zero (ceil_div n b * b - n)).
  - rewrite Rplus_0_r. apply rsum_ext. intros i Hi. destruct (Nat.ltb_spec i n); [reflexivity|lia].
  - intros i Hi. destruct (Nat.ltb_spec (n + i) n); [lia|reflexivity].
Qed.
Lemma div_block i b a : (0 < b)%nat -> (a < b)%nat -> ((i * b + a) / b = i)%nat.
Proof. intros Hb Ha. rewrite Nat.add_comm, Nat.div_add by lia. rewrite Nat.div_small by lia. lia. Qed.

(** ** C207: binning *)
(** Stacks of two-dimensional masks.  The number of masks (and so of buckets) is unchanged, whatever the stack dimensions; the field of view
    is divided by the binning, rounding up. *)
Theorem C207_shapes b c lead V U : dims c = 2%nat -> enc_shape c = lead ++ [V; U] -> dec_shape c = lead ++ [V; U] -> (0 < b)%nat ->
  shape_shifts (bin_masks b c) = lead /\ shape_shifts c = lead /\ buckets_of (bin_masks b c) = buckets_of c /\
  shape_fov (bin_masks b c) = [((V + b - 1) / b)%nat; ((U + b - 1) / b)%nat] /\ enc_shape (bin_masks b c) = dec_shape (bin_masks b c).
Proof.
  intros D E E' Hb. unfold shape_shifts, shape_fov, buckets_of, num_buckets, shape_lead, shape_tail, bin_masks, bin_imgs. cbn [fst snd enc_shape dec_shape dims].
  rewrite E, E', D, !block_shape_last. rewrite !app_length. cbn [List.length].
  replace (List.length lead + 2 - 2)%nat with (List.length lead) by lia.
  assert (F : forall t, firstn (List.length lead) (lead ++ t) = lead) by (intros t; rewrite firstn_app, Nat.sub_diag, firstn_all, firstn_O; apply app_nil_r).
  assert (G : forall t, skipn (List.length lead) (lead ++ t) = t) by (intros t; rewrite skipn_app, Nat.sub_diag, skipn_all; reflexivity).
  rewrite !F, !G. repeat split.
Qed.
(** When the binning divides the field of view, every pixel of every binned mask is the mean of its b x b block. *)
Theorem C207_pixels b c lead qv qu k i j : enc_shape c = lead ++ [qv * b; qu * b]%nat -> (0 < b)%nat -> inb lead k -> (i < qv)%nat -> (j < qu)%nat ->
  enc (bin_masks b c) (k ++ [i; j]) = rsum b (fun a => rsum b (fun d => enc c (k ++ [i * b + a; j * b + d]%nat))) / INR (b * b).
Proof.
  intros E Hb Hk Hi Hj. unfold bin_masks, bin_imgs. cbn [fst snd enc]. rewrite E, binned_pixel by exact Hk. f_equal.
  apply rsum_ext. intros a Ha. apply rsum_ext. intros d Hd. unfold padded.
  destruct (Nat.ltb_spec (i * b + a) (qv * b)); [|nia]. destruct (Nat.ltb_spec (j * b + d) (qu * b)); [reflexivity|nia].
Qed.
(** The buckets.  Whatever the sizes, the bucket that the original mask collects from an image that is constant on the b x b blocks is b^2
    times the bucket that the binned mask collects from the small image: a reconstruction on the binned masks from the same measurements,
    divided by b^2, is the best blocky image. *)
Theorem C207_buckets b c lead V U k (img : nat -> nat -> R) : enc_shape c = lead ++ [V; U] -> (0 < b)%nat -> inb lead k ->
  rsum V (fun p => rsum U (fun q => enc c (k ++ [p; q]) * img (p / b)%nat (q / b)%nat)) =
  INR (b * b) * rsum ((V + b - 1) / b) (fun i => rsum ((U + b - 1) / b) (fun j => enc (bin_masks b c) (k ++ [i; j]) * img i j)).
Proof.
  intros E Hb Hk. fold (ceil_div V b). fold (ceil_div U b). assert (P : INR (b * b) <> 0) by (apply not_0_INR; nia).
  unfold bin_masks, bin_imgs. cbn [fst snd enc]. rewrite E.
  rewrite <- (sum_blocks V b (fun p => rsum U (fun q => enc c (k ++ [p; q]) * img (p / b)%nat (q / b)%nat)) Hb).
  rewrite <- rsum_scal. apply rsum_ext. intros i Hi. rewrite <- rsum_scal.
  rewrite (rsum_ext (ceil_div U b) _ (fun j => rsum b (fun a => rsum b (fun d => padded V U (fun p q => enc c (k ++ [p; q])) (i * b + a) (j * b + d) * img i j)))).
  - rewrite rsum_swap. apply rsum_ext. intros a Ha.
    rewrite (rsum_ext (ceil_div U b) _ (fun j => rsum b (fun d => if (j * b + d <? U)%nat then (if (i * b + a <? V)%nat then enc c (k ++ [i * b + a; j * b + d]%nat) * img i ((j * b + d) / b)%nat else 0) else 0))).
    + rewrite (sum_blocks U b (fun q => if (i * b + a <? V)%nat then enc c (k ++ [(i * b + a)%nat; q]) * img i (q / b)%nat else 0) Hb).
      destruct (Nat.ltb_spec (i * b + a) V).
      * apply rsum_ext. intros q _. rewrite div_block by assumption. reflexivity.
      * symmetry. apply rsum_0.
    + intros j Hj. apply rsum_ext. intros d Hd. rewrite div_block by assumption. unfold padded.
      destruct (Nat.ltb_spec (i * b + a) V), (Nat.ltb_spec (j * b + d) U); cbn [andb]; ring.
  - intros j Hj. rewrite binned_pixel by exact Hk. rewrite <- Rmult_assoc.
    replace (INR (b * b) * (rsum b (fun a => rsum b (fun d => padded V U (fun p q => enc c (k ++ [p; q])) (i * b + a) (j * b + d))) / INR (b * b)))
      with (rsum b (fun a => rsum b (fun d => padded V U (fun p q => enc c (k ++ [p; q])) (i * b + a) (j * b + d)))) by (field; exact P).
    rewrite <- rsum_scal_r. apply rsum_ext. intros a _. now rewrite <- rsum_scal_r.
Qed.
(** In particular the total transmission of each mask is kept, divided by b^2. *)
Theorem C207_transmission b c lead V U k : enc_shape c = lead ++ [V; U] -> (0 < b)%nat -> inb lead k ->
  rsum V (fun p => rsum U (fun q => enc c (k ++ [p; q]))) =
  INR (b * b) * rsum ((V + b - 1) / b) (fun i => rsum ((U + b - 1) / b) (fun j => enc (bin_masks b c) (k ++ [i; j]))).
Proof.
  intros E Hb Hk. pose proof (C207_buckets b c lead V U k (fun _ _ => 1) E Hb Hk) as H. cbv beta in H.
  rewrite (rsum_ext V _ (fun p => rsum U (fun q => enc c (k ++ [p; q]) * 1))) by (intros; apply rsum_ext; intros; ring). rewrite H. f_equal.
  apply rsum_ext; intros; apply rsum_ext; intros; ring.
Qed.
(** Masks with values in [lo, hi] stay there when the binning divides the field of view; otherwise lo must be at most 0 (and hi at least 0):
    the missing pixels of the last blocks count as opaque. *)
Theorem C207_range b c lead V U k i j lo hi : enc_shape c = lead ++ [V; U] -> (0 < b)%nat -> inb lead k ->
  (i < (V + b - 1) / b)%nat -> (j < (U + b - 1) / b)%nat ->
  (forall p q, (p < V)%nat -> (q < U)%nat -> lo <= enc c (k ++ [p; q]) <= hi) ->
  ((V mod b = 0)%nat /\ (U mod b = 0)%nat) \/ (lo <= 0 <= hi) ->
  lo <= enc (bin_masks b c) (k ++ [i; j]) <= hi.
Proof.
  intros E Hb Hk Hi Hj R C. unfold bin_masks, bin_imgs. cbn [fst snd enc]. rewrite E, binned_pixel by exact Hk.
  assert (P : 0 < INR (b * b)) by (apply lt_0_INR; nia).
  assert (B : forall a d, (a < b)%nat -> (d < b)%nat -> lo <= padded V U (fun p q => enc c (k ++ [p; q])) (i * b + a) (j * b + d) <= hi).
  { intros a d Ha Hd. unfold padded. destruct (Nat.ltb_spec (i * b + a) V) as [A|A], (Nat.ltb_spec (j * b + d) U) as [A'|A']; cbn [andb];
      [apply R; assumption| | |]; destruct C as [[Mv Mu]|C]; try exact C; exfalso.
    all: pose proof (Nat.div_mod V b ltac:(lia)); pose proof (Nat.div_mod U b ltac:(lia)).
    all: assert (Ev : ((V + b - 1) / b = V / b)%nat) by (replace V with (V / b * b)%nat at 1 by lia; apply ceil_div_mul; exact Hb).
    all: assert (Eu : ((U + b - 1) / b = U / b)%nat) by (replace U with (U / b * b)%nat at 1 by lia; apply ceil_div_mul; exact Hb).
    all: rewrite Ev in Hi; rewrite Eu in Hj; pose proof (Nat.mul_le_mono_r (i + 1) (V / b) b ltac:(lia)); pose proof (Nat.mul_le_mono_r (j + 1) (U / b) b ltac:(lia)).
    all: rewrite Nat.mul_add_distr_r in *; rewrite ?(Nat.mul_comm b) in *; lia. }
  assert (S : INR (b * b) * lo <= rsum b (fun a => rsum b (fun d => padded V U (fun p q => enc c (k ++ [p; q])) (i * b + a) (j * b + d))) <= INR (b * b) * hi).
  { replace (INR (b * b) * lo) with (rsum b (fun _ => rsum b (fun _ => lo))) by (rewrite !rsum_const, mult_INR; ring).
    replace (INR (b * b) * hi) with (rsum b (fun _ => rsum b (fun _ => hi))) by (rewrite !rsum_const, mult_INR; ring).
    split; apply rsum_le; intros a Ha; apply rsum_le; intros d Hd; apply B; assumption. }
  split; apply Rmult_le_reg_r with (INR (b * b)); try exact P; unfold Rdiv; rewrite Rmult_assoc, Rinv_l by lra; lra.
Qed.
(** REFUTED: a fully open mask stays fully open.  With a field of view that the binning does not divide the last row and column are darker:
    1 / 2 for the last of three open pixels binned by two. *)
Theorem C207_range_refuted : exists c, enc_shape c = [1; 2; 3]%nat /\ (forall l, enc c l = 1) /\ dims c = 2%nat /\
  enc (bin_masks 2 c) [0; 0; 0]%nat = 1 /\ enc (bin_masks 2 c) [0; 0; 1]%nat = 1 / 2.
Proof.
  exists {| enc_shape := [1; 2; 3]%nat; enc := fun _ => 1; dec_shape := [1; 2; 3]%nat; dec := fun _ => 1; dims := 2; kind := ""%string; support := [2; 3]%nat |}.
  split; [reflexivity|]. split; [reflexivity|]. split; [reflexivity|].
  unfold bin_masks, bin_imgs, block_reduce_mean, last_two, zero_pad, in_box, size. cbn. split; field.
Qed.
(** Binning by one changes no mask; binning twice is binning by the product when both divide. *)
Theorem C207_one c lead V U k p q : enc_shape c = lead ++ [V; U] -> inb lead k -> (p < V)%nat -> (q < U)%nat ->
  enc_shape (bin_masks 1 c) = enc_shape c /\ enc (bin_masks 1 c) (k ++ [p; q]) = enc c (k ++ [p; q]).
Proof.
  intros E Hk Hp Hq. split.
  - unfold bin_masks, bin_imgs. cbn [fst enc_shape]. rewrite E, block_shape_last. unfold ceil_div. rewrite !Nat.div_1_r. now rewrite !Nat.add_sub.
  - unfold bin_masks, bin_imgs. cbn [fst snd enc]. rewrite E, binned_pixel by exact Hk. cbn [rsum]. unfold padded.
    rewrite !Nat.mul_1_r, !Nat.add_0_r. destruct (Nat.ltb_spec p V); [|lia]. destruct (Nat.ltb_spec q U); [|lia]. cbn. field.
Qed.
Theorem C207_twice a b c lead qv qu k i j : enc_shape c = lead ++ [qv * (a * b); qu * (a * b)]%nat -> (0 < a)%nat -> (0 < b)%nat ->
  inb lead k -> (i < qv)%nat -> (j < qu)%nat ->
  enc (bin_masks b (bin_masks a c)) (k ++ [i; j]) = enc (bin_masks (a * b) c) (k ++ [i; j]).
Proof.
  intros E Ha Hb Hk Hi Hj.
  rewrite (C207_pixels (a * b) c lead qv qu) by (try assumption; nia).
  assert (S : enc_shape (bin_masks a c) = lead ++ [qv * b; qu * b]%nat).
  { unfold bin_masks, bin_imgs. cbn [fst enc_shape]. rewrite E, block_shape_last.
    replace (qv * (a * b))%nat with (qv * b * a)%nat by lia. replace (qu * (a * b))%nat with (qu * b * a)%nat by lia. now rewrite !ceil_div_mul by exact Ha. }
  rewrite (C207_pixels b (bin_masks a c) lead qv qu) by assumption.
  assert (E' : enc_shape c = lead ++ [qv * b * a; qu * b * a]%nat) by (rewrite E; now replace (qv * (a * b))%nat with (qv * b * a)%nat by lia; replace (qu * (a * b))%nat with (qu * b * a)%nat by lia).
  assert (Pa : INR (a * a) <> 0) by (apply not_0_INR; nia). assert (Pb : INR (b * b) <> 0) by (apply not_0_INR; nia).
  rewrite (rsum_ext b _ (fun s => rsum a (fun t => rsum (a * b) (fun d => enc c (k ++ [(i * (a * b) + (s * a + t))%nat; (j * (a * b) + d)%nat]))) * / INR (a * a))).
  - rewrite rsum_scal_r. rewrite <- (rsum_mul b a (fun p => rsum (a * b) (fun d => enc c (k ++ [(i * (a * b) + p)%nat; (j * (a * b) + d)%nat])))).
    replace (b * a)%nat with (a * b)%nat by lia. replace (a * b * (a * b))%nat with (a * a * (b * b))%nat by lia. rewrite (mult_INR (a * a)). field. split; assumption.
  - intros s Hs. rewrite (rsum_ext b _ (fun d => rsum a (fun t => rsum a (fun u => enc c (k ++ [((i * b + s) * a + t)%nat; ((j * b + d) * a + u)%nat]))) * / INR (a * a))).
    + rewrite rsum_scal_r. f_equal. rewrite rsum_swap. apply rsum_ext. intros t Ht.
      replace (a * b)%nat with (b * a)%nat by lia.
      rewrite (rsum_mul b a (fun d => enc c (k ++ [(i * (b * a) + (s * a + t))%nat; (j * (b * a) + d)%nat]))). apply rsum_ext. intros d Hd. apply rsum_ext. intros u Hu.
      f_equal. f_equal. f_equal; [lia|]. f_equal. lia.
    + intros d Hd. rewrite (C207_pixels a c lead (qv * b) (qu * b)); try assumption; try nia. reflexivity.
Qed.
(** Collections without separate decoding masks stay so: the decomposition, which refuses encoding-decoding pairs, is still allowed. *)
Theorem C207_same b c : dec_shape c = enc_shape c -> dec c = enc c ->
  dec (bin_masks b c) = enc (bin_masks b c) /\ ~ masks_differ (bin_masks b c).
Proof.
  intros S E. assert (H : dec (bin_masks b c) = enc (bin_masks b c)) by (unfold bin_masks; cbn [dec enc]; now rewrite S, E).
  split; [exact H|]. intros (l & _ & N). apply N. now rewrite H.
Qed.
(** The decoding masks are binned in the same way: exchanging the roles of the two sets of masks commutes with binning, so every theorem on
    the encoding masks holds for the decoding masks. *)
Definition exchanged (c : collection) : collection :=
  {| enc_shape := dec_shape c; enc := dec c; dec_shape := enc_shape c; dec := enc c; dims := dims c; kind := kind c; support := support c |}.
Theorem C207_decoding b c lead qv qu k i j : bin_masks b (exchanged c) = exchanged (bin_masks b c) /\
  (dec_shape c = lead ++ [qv * b; qu * b]%nat -> (0 < b)%nat -> inb lead k -> (i < qv)%nat -> (j < qu)%nat ->
   dec (bin_masks b c) (k ++ [i; j]) = rsum b (fun a => rsum b (fun d => dec c (k ++ [i * b + a; j * b + d]%nat))) / INR (b * b)).
Proof.
  assert (S : bin_masks b (exchanged c) = exchanged (bin_masks b c)) by reflexivity. split; [exact S|]. intros E Hb Hk Hi Hj.
  change (dec (bin_masks b c)) with (enc (exchanged (bin_masks b c))). rewrite <- S.
  now rewrite (C207_pixels b (exchanged c) lead qv qu k i j).
Qed.
(** The constructor: accepted exactly when each array has an axis more than a mask and the two have the same stack and mask shapes; ValueError
    otherwise.  The masks are the given ones, the decoding masks default to the encoding ones, the support to the field of view. *)
Theorem C207_make s m d nd ty sup : (0 < nd)%nat ->
  ((nd < List.length s)%nat /\ (forall t y, d = Some (t, y) -> t = s) ->
    exists c, make s m d nd ty sup = inr c /\ enc_shape c = s /\ dec_shape c = s /\ enc c = m /\ kind c = ty /\ dims c = nd /\
      dec c = match d with Some (_, y) => y | None => m end /\
      (forall l, sup = Some l -> support c = l) /\ (sup = None -> support c = shape_fov c)) /\
  (~ ((nd < List.length s)%nat /\ (forall t y, d = Some (t, y) -> t = s)) -> make s m d nd ty sup = inl ValueError).
Proof.
  intros Hnd. unfold make, mask_collection_check. destruct (Nat.ltb_spec (List.length s) (nd + 1)) as [L|L].
  - split; [intros [H _]; lia|reflexivity].
  - destruct d as [[t y]|]; cbn [option_map fst].
    + assert (R : forall a b, nl_eqb a b = true <-> a = b) by (intros a b; unfold nl_eqb; destruct (list_eq_dec Nat.eq_dec a b); split; congruence).
      destruct (list_eq_dec Nat.eq_dec t s) as [->|N].
      * split; [|intros H; exfalso; apply H; split; [lia|congruence]]. intros _.
        destruct (Nat.ltb_spec (List.length s) (nd + 1)); [lia|]. rewrite (proj2 (R _ _) eq_refl), (proj2 (R _ _) eq_refl). cbn [negb].
        eexists. split; [reflexivity|]. repeat split; cbn [support shape_fov dims enc_shape]; intros; subst; reflexivity.
      * split; [intros [_ H]; exfalso; apply N; eapply H; reflexivity|]. intros _.
        destruct (Nat.ltb_spec (List.length t) (nd + 1)) as [Lt|Lt]; [reflexivity|].
        destruct (nl_eqb (shape_lead nd s) (shape_lead nd t)) eqn:E1; cbn [negb]; [|reflexivity].
        destruct (nl_eqb (shape_tail nd s) (shape_tail nd t)) eqn:E2; cbn [negb]; [|reflexivity].
        exfalso. apply N. apply R in E1. apply R in E2.
        rewrite <- (firstn_skipn (List.length s - nd) s), <- (firstn_skipn (List.length t - nd) t).
        unfold shape_lead, shape_tail in *. congruence.
    + split; [|intros H; exfalso; apply H; split; [lia|congruence]]. intros _. eexists. split; [reflexivity|].
      repeat split; cbn [support shape_fov dims enc_shape]; intros; subst; reflexivity.
Qed.
(** Nothing but the masks changes.  REFUTED: that the support stays within the field of view, which is what a new collection made from the
    binned masks would have. *)
Theorem C207_attributes b c : dims (bin_masks b c) = dims c /\ kind (bin_masks b c) = kind c /\ support (bin_masks b c) = support c.
Proof. repeat split. Qed.
Theorem C207_support_refuted : exists c c', make [7; 8; 8]%nat (fun _ => 1) None 2 "measured" None = inr c /\
  make (enc_shape (bin_masks 2 c)) (enc (bin_masks 2 c)) None 2 "measured" None = inr c' /\
  support (bin_masks 2 c) = [8; 8]%nat /\ shape_fov (bin_masks 2 c) = [4; 4]%nat /\ support c' = [4; 4]%nat.
Proof. eexists. eexists. split; [reflexivity|]. split; [reflexivity|]. repeat split. Qed.
(** REFUTED for one-dimensional masks: the last two axes are then the mask number and the pixel, so neighbouring masks are averaged and the
    number of buckets changes: the recorded buckets no longer correspond to the masks. *)
Theorem C207_one_dimensional_refuted n U b c : dims c = 1%nat -> enc_shape c = [n; U] -> (1 < b)%nat -> (1 < n)%nat ->
  buckets_of (bin_masks b c) = ((n + b - 1) / b)%nat /\ (buckets_of (bin_masks b c) < buckets_of c)%nat.
Proof.
  intros D E Hb Hn. unfold buckets_of, num_buckets, shape_lead, bin_masks, bin_imgs. cbn [fst enc_shape dims]. rewrite E, D. cbn.
  rewrite !Nat.mul_1_r. split; [reflexivity|]. unfold ceil_div. apply Nat.div_lt_upper_bound; nia.
Qed.

(** ** C207: looking masks up *)
(** The mask at the given shifts: negative shifts count from the end, and anything else outside, or more indices than axes, raises. *)
Definition valid (s : list nat) (is : list Z) : Prop :=
  (List.length is <= List.length s)%nat /\ forall a, (a < List.length is)%nat -> (- Z.of_nat (nth a s 0%nat) <= nth a is 0 < Z.of_nat (nth a s 0%nat))%Z.
Lemma wrap_all_spec s is : (valid s is -> exists k, wrap_all s is = inr k /\ inb (firstn (List.length is) s) k /\
    forall a, (a < List.length is)%nat -> Z.of_nat (nth a k 0%nat) = (if (nth a is 0 <? 0)%Z then nth a is 0 + Z.of_nat (nth a s 0%nat) else nth a is 0)%Z) /\
  (~ valid s is -> wrap_all s is = inl IndexError).
Proof.
  revert s. induction is as [|i is IH]; intros s.
  - split.
    + intros _. exists []. split; [destruct s; reflexivity|]. split; [constructor|]. intros a Ha. cbn in Ha. lia.
    + intros H. exfalso. apply H. split; cbn; [lia|]. intros a Ha. lia.
  - destruct s as [|n s].
    + split; [intros [L _]; cbn in L; lia|reflexivity].
    + destruct (IH s) as [I1 I2]. cbn [wrap_all]. unfold wrap at 1 2.
      destruct ((- Z.of_nat n <=? i)%Z && (i <? Z.of_nat n)%Z)%bool eqn:W.
      * rewrite andb_true_iff, Z.leb_le, Z.ltb_lt in W. split.
        -- intros [L V]. destruct I1 as (k & E & Ib & Q).
           { split; [cbn in L; lia|]. intros a Ha. apply (V (S a)). cbn. lia. }
           rewrite E. eexists. split; [reflexivity|]. split.
           ++ cbn [List.length firstn]. rewrite inb_cons. split; [|exact Ib]. destruct (Z.ltb_spec i 0); lia.
           ++ intros [|a] Ha; cbn [nth]; [destruct (Z.ltb_spec i 0); rewrite Z2Nat.id by lia; reflexivity|]. apply Q. cbn in Ha. lia.
        -- intros N. rewrite I2; [reflexivity|]. intros [L V]. apply N. split; [cbn; lia|]. intros [|a] Ha; cbn [nth]; [exact W|]. apply V. cbn in Ha. lia.
      * split; [|reflexivity]. intros [L V]. specialize (V 0%nat ltac:(cbn; lia)). cbn [nth] in V.
        assert (((- Z.of_nat n <=? i)%Z && (i <? Z.of_nat n)%Z)%bool = true) by (rewrite andb_true_iff, Z.leb_le, Z.ltb_lt; exact V). congruence.
Qed.
Theorem C207_get_mask c is : enc_shape c = dec_shape c ->
  (valid (enc_shape c) is -> exists k m d,
     (forall a, (a < List.length is)%nat -> Z.of_nat (nth a k 0%nat) = (if (nth a is 0 <? 0)%Z then nth a is 0 + Z.of_nat (nth a (enc_shape c) 0%nat) else nth a is 0)%Z) /\
     List.length k = List.length is /\
     get_mask c is true = inr (skipn (List.length is) (enc_shape c), m) /\ get_mask c is false = inr (skipn (List.length is) (enc_shape c), d) /\
     (forall l, m l = enc c (k ++ l) /\ d l = dec c (k ++ l))) /\
  (~ valid (enc_shape c) is -> get_mask c is true = inl IndexError /\ get_mask c is false = inl IndexError).
Proof.
  intros S. destruct (wrap_all_spec (enc_shape c) is) as [H1 H2]. split.
  - intros V. destruct (H1 V) as (k & E & Ib & Q). exists k, (fun l => enc c (k ++ l)), (fun l => dec c (k ++ l)). split; [exact Q|]. split.
    + pose proof (inb_length _ _ Ib) as L. rewrite firstn_length in L. destruct V as [Lv _]. lia.
    + unfold get_mask. rewrite <- S, E. repeat split.
  - intros N. unfold get_mask. rewrite <- S, (H2 N). split; reflexivity.
Qed.

(** ** Examples: the hypotheses are met and the numbers are the expected ones *)
Definition ramp : arr := fun l => match l with [k; i; j] => INR (100 * k + 10 * i + j) | _ => 0 end.
Definition two_masks : collection :=
  {| enc_shape := [2; 4; 6]%nat; enc := ramp; dec_shape := [2; 4; 6]%nat; dec := ramp; dims := 2; kind := "measured"; support := [4; 6]%nat |}.
Example C207_example : make [2; 4; 6]%nat ramp None 2 "measured" None = inr two_masks /\
  shape_fov (bin_masks 2 two_masks) = [2; 3]%nat /\ buckets_of (bin_masks 2 two_masks) = 2%nat /\
  enc (bin_masks 2 two_masks) [1; 1; 2]%nat = 1295 / 10 /\
  (exists m, get_mask two_masks [-1; 2]%Z true = inr ([6%nat], m) /\ m [3]%nat = 123) /\
  get_mask two_masks [2]%Z true = inl IndexError /\ get_mask two_masks [0; 0; 0; 0]%Z false = inl IndexError.
Proof.
  split; [reflexivity|]. split; [reflexivity|]. split; [reflexivity|]. split.
  - change [1; 1; 2]%nat with ([1] ++ [1; 2])%nat. rewrite (C207_pixels 2 two_masks [2%nat] 2 3 [1%nat] 1 2); [|reflexivity|lia|repeat constructor|lia|lia].
    cbn [two_masks enc ramp app rsum]. rewrite !INR_IZR_INZ. cbn. lra.
  - split; [|split; reflexivity]. eexists. split; [reflexivity|]. cbn [app two_masks enc ramp]. rewrite INR_IZR_INZ. reflexivity.
Qed.
