(** Properties of processing/misc.py: C63, C64, C121, C122. *)
From Coq Require Import Reals Lra Lia List ZArith Bool Permutation Sorting.Sorted.
Import ListNotations.
From Verif Require Import Sums Arrays OperatorsModel OperatorsLayoutProps Rounding PyErr Reindex ProcMiscModel.
Open Scope R_scope.

(** * C63: azimuthal integration *)
Lemma az_radius_nonneg dom ds l : 0 <= az_radius dom ds l.
Proof. apply sqrt_pos. Qed.
Lemma az_lower_bounds dom ds l : INR (az_lower dom ds l) <= az_radius dom ds l < INR (az_lower dom ds l) + 1.
Proof.
  unfold az_lower. pose proof (az_radius_nonneg dom ds l) as H. pose proof (rfloor_nonneg _ H) as Hz.
  rewrite INR_IZR_INZ, Z2Nat.id by exact Hz. apply rfloor_spec.
Qed.
Lemma rsum_pick n k (v : R) : (k < n)%nat -> rsum n (fun i => if Nat.eqb k i then v else 0) = v.
Proof.
  intros H. rewrite (rsum_single n _ k H).
  - now rewrite Nat.eqb_refl.
  - intros i _ Hi. destruct (Nat.eqb_spec k i); [congruence|reflexivity].
Qed.
Lemma list_max_ge k l : In k l -> (k <= list_max l)%nat.
Proof. intros H. pose proof (proj1 (list_max_le l (list_max l)) (Nat.le_refl _)) as F. rewrite Forall_forall in F. now apply F. Qed.
Lemma az_len_bound dom ds l : inb ds l -> (S (az_lower dom ds l) < az_len dom ds)%nat.
Proof.
  intros H. unfold az_len. apply -> Nat.succ_le_mono. apply list_max_ge. apply in_map_iff.
  exists (flat ds l). split; [now rewrite unflat_flat|]. apply in_seq. pose proof (flat_lt ds l H). lia.
Qed.
(** Any sum over the bins of [phi(k) * profile(k)] is the sum over the pixels of the linear interpolation of [phi] at the radius. *)
Lemma az_moment dom ds img (phi : nat -> R) :
  rsum (az_len dom ds) (fun k => phi k * az_profile dom ds img k)
  = bsum ds (fun l => (phi (az_lower dom ds l) * (INR (az_lower dom ds l) + 1 - az_radius dom ds l)
                       + phi (S (az_lower dom ds l)) * (az_radius dom ds l - INR (az_lower dom ds l))) * img l).
Proof.
  unfold az_profile.
  rewrite (rsum_ext _ _ (fun k => bsum ds (fun l => phi k * ((if Nat.eqb (az_lower dom ds l) k then az_w_l dom ds img l else 0)
                  + (if Nat.eqb (S (az_lower dom ds l)) k then az_w_u dom ds img l else 0)))))
    by (intros; symmetry; apply bsum_scal).
  rewrite <- bsum_rsum. apply bsum_ext. intros l Hl. pose proof (az_len_bound dom ds l Hl) as B.
  rewrite (rsum_ext _ _ (fun k => (if Nat.eqb (az_lower dom ds l) k then phi (az_lower dom ds l) * az_w_l dom ds img l else 0)
                  + (if Nat.eqb (S (az_lower dom ds l)) k then phi (S (az_lower dom ds l)) * az_w_u dom ds img l else 0))).
  2:{ intros k _. destruct (Nat.eqb_spec (az_lower dom ds l) k) as [E|E]; destruct (Nat.eqb_spec (S (az_lower dom ds l)) k) as [F|F]; try lia; try rewrite E; try rewrite F; ring. }
  rewrite rsum_plus, !rsum_pick by lia. unfold az_w_l, az_w_u. ring.
Qed.

(** The sum of the azimuthally integrated profile is the sum of the image, in any number of dimensions, for both domains. *)
Theorem C63_total_conserved dom ds img : rsum (az_len dom ds) (az_profile dom ds img) = bsum ds img.
Proof.
  rewrite (rsum_ext _ _ (fun k => 1 * az_profile dom ds img k)) by (intros; ring).
  rewrite (az_moment dom ds img (fun _ => 1)). apply bsum_ext. intros; ring.
Qed.
(** Moreover the first radial moment is conserved: interpolation between the two neighbouring radii is exact. *)
Theorem C63_first_moment_conserved dom ds img :
  rsum (az_len dom ds) (fun k => INR k * az_profile dom ds img k) = bsum ds (fun l => az_radius dom ds l * img l).
Proof.
  rewrite (az_moment dom ds img INR). apply bsum_ext. intros l Hl. rewrite S_INR. ring.
Qed.
Theorem C63_profile_nonneg dom ds img k : (forall l, inb ds l -> 0 <= img l) -> 0 <= az_profile dom ds img k.
Proof.
  intros H. unfold az_profile. apply bsum_nonneg. intros l Hl. specialize (H l Hl).
  pose proof (az_lower_bounds dom ds l) as [B1 B2].
  assert (0 <= az_w_l dom ds img l) by (unfold az_w_l; apply Rmult_le_pos; lra).
  assert (0 <= az_w_u dom ds img l) by (unfold az_w_u; apply Rmult_le_pos; lra).
  destruct (Nat.eqb _ _), (Nat.eqb _ _); lra.
Qed.
Theorem C63_linear dom ds x y a b k :
  az_profile dom ds (fun l => a * x l + b * y l) k = a * az_profile dom ds x k + b * az_profile dom ds y k.
Proof.
  unfold az_profile. rewrite <- !bsum_scal, <- bsum_plus. apply bsum_ext. intros l _. unfold az_w_l, az_w_u.
  destruct (Nat.eqb _ _), (Nat.eqb _ _); ring.
Qed.
(** A pixel only feeds the (at most two) bins adjacent to its radius. *)
Theorem C63_locality dom ds x y k :
  (forall l, inb ds l -> Rabs (az_radius dom ds l - INR k) < 1 -> x l = y l) -> az_profile dom ds x k = az_profile dom ds y k.
Proof.
  intros H. unfold az_profile. apply bsum_ext. intros l Hl. pose proof (az_lower_bounds dom ds l) as [B1 B2].
  unfold az_w_l, az_w_u. destruct (Nat.eqb_spec (az_lower dom ds l) k) as [E|E], (Nat.eqb_spec (S (az_lower dom ds l)) k) as [F|F]; try lra.
  - lia.
  - rewrite H; auto. subst k. apply Rabs_def1; lra.
  - destruct (Req_dec (az_radius dom ds l) (INR (az_lower dom ds l))) as [Q|Q]; [rewrite Q; ring|].
    rewrite H; auto. subst k. rewrite S_INR. apply Rabs_def1; lra.
Qed.

(** ** stacks: the listed axes move to the end, every remaining index gets its own profile *)
Lemma bsum_app s t f : bsum (s ++ t) f = bsum s (fun l => bsum t (fun m => f (l ++ m))).
Proof.
  revert f. induction s as [|n s IH]; intros f; simpl; [reflexivity|].
  apply rsum_ext. intros i _. now rewrite IH.
Qed.
(** For every stack index the total of the profile is the total of that image. *)
Theorem C63_stack_conserved dom s axes img lead :
  rsum (az_len dom (map (fun a => nth a s 0%nat) axes)) (azimuthal_integration dom s axes img lead)
  = bsum (map (fun a => nth a s 0%nat) axes) (fun l => np_transpose (az_perm (length s) axes) img (lead ++ l)).
Proof. unfold azimuthal_integration. apply C63_total_conserved. Qed.
Lemma az_perm_perm nd axes : NoDup axes -> (forall a, In a axes -> (a < nd)%nat) -> Permutation (az_perm nd axes) (seq 0 nd).
Proof.
  intros N H. pose proof (fwd_is_perm nd axes []) as F. unfold fwd_transpose, invariant_dims in F. rewrite !app_nil_r in F.
  unfold az_perm. now apply F.
Qed.
(** Over the whole stack: the sum of all profiles is the sum of all the images' pixels, whichever axes are integrated. *)
Theorem C63_all_axes_conserved dom (s axes : list nat) img : NoDup axes -> (forall a, In a axes -> (a < length s)%nat) ->
  bsum (transpose_shape (invariant_dims (length s) axes) s)
    (fun lead => rsum (az_len dom (transpose_shape axes s)) (azimuthal_integration dom s axes img lead))
  = bsum s img.
Proof.
  intros N H. rewrite <- (bsum_np_transpose (az_perm (length s) axes) s img (az_perm_perm _ _ N H)).
  unfold az_perm at 1, transpose_shape at 3. rewrite map_app.
  change (map (fun p => nth p s 0%nat) (filter (fun i => negb (existsb (Nat.eqb i) axes)) (seq 0 (length s))))
    with (transpose_shape (invariant_dims (length s) axes) s).
  rewrite bsum_app. apply bsum_ext. intros lead _. apply C63_stack_conserved.
Qed.
(** example: the four pixels of a 2 x 2 image have radius sqrt(1/2) in the direct domain: bins 0 and 1 share them. *)
Example C63_example : let img := fun l => match l with [i; j] => INR (2 * i + j) | _ => 0 end in
  az_len AzDirect [2%nat; 2%nat] = 2%nat /\ az_profile AzDirect [2%nat; 2%nat] img 0 + az_profile AzDirect [2%nat; 2%nat] img 1 = 6.
Proof.
  intros img.
  assert (F : forall i j, (i < 2)%nat -> (j < 2)%nat -> az_lower AzDirect [2%nat; 2%nat] [i; j] = 0%nat).
  { intros i j Hi Hj. unfold az_lower. rewrite (rfloor_unique _ 0%Z); [reflexivity|].
    unfold az_radius. split; [apply sqrt_pos|]. replace (IZR 0 + 1) with (sqrt 1) by (rewrite sqrt_1; ring).
    apply sqrt_lt_1_alt. unfold az_sumsq, az_coord. destruct i as [|[|]], j as [|[|]]; try lia; simpl; lra. }
  split.
  - unfold az_len. cbn [size fold_right seq map Nat.mul Nat.add unflat]. change (0 / (2 * 1))%nat with 0%nat.
    rewrite !F by (vm_compute; lia). reflexivity.
  - assert (E : az_len AzDirect [2%nat; 2%nat] = 2%nat).
    { unfold az_len. cbn [size fold_right seq map Nat.mul Nat.add unflat]. rewrite !F by (vm_compute; lia). reflexivity. }
    pose proof (C63_total_conserved AzDirect [2%nat; 2%nat] img) as T. rewrite E in T. cbn [rsum] in T.
    rewrite Rplus_0_l in T. rewrite T. unfold img. cbn [bsum rsum Nat.mul Nat.add INR]. lra.
Qed.

(** * C64: line intersection *)
Lemma sorted_filter (p : nat -> bool) l : StronglySorted le l -> StronglySorted le (filter p l).
Proof.
  induction 1 as [|a l H IH F]; simpl; [constructor|]. destruct (p a); [|exact IH]. constructor; [exact IH|].
  rewrite Forall_forall in *. intros x Hx. apply filter_In in Hx as [Hx _]. now apply F.
Qed.
Lemma sorted_last l d j : StronglySorted le l -> In j l -> (j <= last l d)%nat.
Proof.
  intros Q. revert j. induction Q as [|a l H IH F]; [intros j []|]. intros j [<-|Hj].
  - destruct l as [|b l]; [simpl; lia|]. rewrite Forall_forall in F. change (last (a :: b :: l) d) with (last (b :: l) d).
    transitivity b; [apply F; now left|]. apply IH. now left.
  - destruct l as [|b l]; [destruct Hj|]. change (last (a :: b :: l) d) with (last (b :: l) d). now apply IH.
Qed.
Lemma in_crossings l1 l2 lo hi i : In i (crossings l1 l2 lo hi) <-> (lo <= i < hi)%nat /\ crossing l1 l2 i = true.
Proof. unfold crossings. rewrite filter_In, in_seq. intuition lia. Qed.
(** what the crossing test means: line_2 is strictly above line_1 at exactly one of the two ends *)
Lemma crossing_spec l1 l2 i : crossing l1 l2 i = true <->
  (l1 i < line2_at l2 i /\ line2_at l2 (S i) <= l1 (S i)) \/ (line2_at l2 i <= l1 i /\ l1 (S i) < line2_at l2 (S i)).
Proof.
  unfold crossing, above. destruct (Rlt_dec (l1 i) (line2_at l2 i)), (Rlt_dec (l1 (S i)) (line2_at l2 (S i))); simpl; split; intros H; try discriminate; auto; lra.
Qed.
(** the segments over [i, i+1] meet at the returned point *)
Lemma segment_intersection_sound y1 y2 y3 y4 i :
  (y1 < y3 /\ y4 <= y2) \/ (y3 <= y1 /\ y2 < y4) ->
  let (px, py) := segment_intersection y1 y2 y3 y4 i in
  INR i <= px <= INR i + 1 /\ py = y1 + (px - INR i) * (y2 - y1) /\ py = y3 + (px - INR i) * (y4 - y3).
Proof.
  intros H. unfold segment_intersection.
  set (d := (0 - 1) * (y3 - y4) - (y1 - y2) * (0 - 1)).
  assert (Hd : d <> 0) by (unfold d; lra).
  assert (E : (0 * y2 - y1 * 1) * (0 - 1) - (0 - 1) * (0 * y4 - y3 * 1) = y1 - y3) by ring. rewrite E.
  split.
  - assert (T : 0 <= (y1 - y3) / d <= 1).
    { destruct H as [[A B]|[A B]].
      - assert (d < 0) by (unfold d; lra). split.
        + replace ((y1 - y3) / d) with ((y3 - y1) * / (- d)) by (field; lra). apply Rmult_le_pos; [lra|]. left. apply Rinv_0_lt_compat. lra.
        + apply Rmult_le_reg_r with (- d); [lra|]. replace ((y1 - y3) / d * - d) with (y3 - y1) by (field; lra). unfold d; lra.
      - assert (0 < d) by (unfold d; lra). split.
        + apply Rmult_le_pos; [lra|]. left. now apply Rinv_0_lt_compat.
        + apply Rmult_le_reg_r with d; [lra|]. replace ((y1 - y3) / d * d) with (y1 - y3) by (field; lra). unfold d; lra. }
    lra.
  - split; unfold d in *; field; lra.
Qed.
(** When a point is returned it lies on both curves, in a window interval where they cross, and that interval is the
    first (last) crossing of the window. *)
Theorem C64_point_on_both_curves n l1 l2 pos x_lims px py :
  lines_intersection n l1 l2 pos x_lims = inr (Some (px, py)) ->
  exists lo hi i, window n x_lims = inr (lo, hi) /\ (lo <= i < hi)%nat /\ (S i < n)%nat
    /\ ((l1 i < line2_at l2 i /\ line2_at l2 (S i) <= l1 (S i)) \/ (line2_at l2 i <= l1 i /\ l1 (S i) < line2_at l2 (S i)))
    /\ INR i <= px <= INR i + 1
    /\ py = l1 i + (px - INR i) * (l1 (S i) - l1 i)
    /\ py = line2_at l2 i + (px - INR i) * (line2_at l2 (S i) - line2_at l2 i)
    /\ (forall j, (lo <= j < hi)%nat -> crossing l1 l2 j = true ->
          match pos with P_first => (i <= j)%nat | P_last => (j <= i)%nat | P_other => False end).
Proof.
  unfold lines_intersection. destruct (window n x_lims) as [e|[lo hi]] eqn:W; [discriminate|].
  destruct (crossings l1 l2 lo hi) as [|c cs] eqn:C; [discriminate|].
  assert (Hn : forall i, (i < hi)%nat -> (S i < n)%nat).
  { intros i Hi. unfold window in W. destruct x_lims as [[[a|] [b|]]|]; inversion W; subst; lia. }
  assert (Key : forall i, In i (c :: cs) -> segment_intersection (l1 i) (l1 (S i)) (line2_at l2 i) (line2_at l2 (S i)) i = (px, py) ->
     (lo <= i < hi)%nat /\ (S i < n)%nat
    /\ ((l1 i < line2_at l2 i /\ line2_at l2 (S i) <= l1 (S i)) \/ (line2_at l2 i <= l1 i /\ l1 (S i) < line2_at l2 (S i)))
    /\ INR i <= px <= INR i + 1 /\ py = l1 i + (px - INR i) * (l1 (S i) - l1 i)
    /\ py = line2_at l2 i + (px - INR i) * (line2_at l2 (S i) - line2_at l2 i)).
  { intros i Hi E. rewrite <- C in Hi. apply in_crossings in Hi as [B X]. apply crossing_spec in X.
    pose proof (segment_intersection_sound _ _ _ _ i X) as S. rewrite E in S.
    split; [exact B|]. split; [apply Hn; lia|]. split; [exact X|exact S]. }
  destruct pos; [| |discriminate]; intros E'; apply (f_equal (fun r : py_err + option (R * R) => match r with inr (Some p) => p | _ => (px, py) end)) in E'; cbn beta iota in E'; exists lo, hi.
  - exists c. destruct (Key c (or_introl eq_refl) E') as (K1 & K2 & K3 & K4 & K5 & K6). repeat split; try tauto; try lia; try lra.
    intros j Hj X. assert (In j (c :: cs)) as I by (rewrite <- C; now apply in_crossings).
    assert (Srt : StronglySorted le (c :: cs)) by (rewrite <- C; unfold crossings; apply sorted_filter, seq_sorted).
    destruct I as [<-|I]; [lia|]. inversion Srt as [|? ? _ F]; subst. rewrite Forall_forall in F. now apply F.
  - set (i := last (c :: cs) c) in *. assert (Ii : In i (c :: cs)).
    { destruct (exists_last (l := c :: cs)) as (r & z & Q); [discriminate|]. unfold i. rewrite Q, last_last. apply in_app_iff. right. now left. }
    exists i. destruct (Key i Ii E') as (K1 & K2 & K3 & K4 & K5 & K6). repeat split; try tauto; try lia; try lra.
    intros j Hj X. assert (In j (c :: cs)) as I by (rewrite <- C; now apply in_crossings).
    assert (Srt : StronglySorted le (c :: cs)) by (rewrite <- C; unfold crossings; apply sorted_filter, seq_sorted).
    unfold i. clearbody i. now apply sorted_last.
Qed.
(** None is returned exactly when, over the samples of the window, line_2 stays strictly above line_1 or never is. *)
Lemma no_crossing_const l1 l2 lo k : (forall j, (lo <= j < lo + k)%nat -> crossing l1 l2 j = false) ->
  forall j, (lo <= j <= lo + k)%nat -> above l1 l2 j = above l1 l2 lo.
Proof.
  intros H j Hj. replace j with (lo + (j - lo))%nat by lia. assert (Hk : (j - lo <= k)%nat) by lia. clear Hj.
  induction (j - lo)%nat as [|m IH]; [now rewrite Nat.add_0_r|].
  rewrite <- IH by lia. assert (X := H (lo + m)%nat ltac:(lia)). unfold crossing in X. apply xorb_eq in X.
  rewrite X. f_equal. lia.
Qed.
Lemma above_spec l1 l2 i : above l1 l2 i = true <-> l1 i < line2_at l2 i.
Proof. unfold above. destruct (Rlt_dec _ _); split; intros; auto; try discriminate; lra. Qed.
Lemma above_spec_f l1 l2 i : above l1 l2 i = false <-> line2_at l2 i <= l1 i.
Proof. unfold above. destruct (Rlt_dec _ _); split; intros; auto; try discriminate; lra. Qed.
Theorem C64_none_iff n l1 l2 pos x_lims lo hi : window n x_lims = inr (lo, hi) -> (lo <= hi)%nat ->
  (lines_intersection n l1 l2 pos x_lims = inr None <->
   ((forall i, (lo <= i <= hi)%nat -> l1 i < line2_at l2 i) \/ (forall i, (lo <= i <= hi)%nat -> line2_at l2 i <= l1 i))).
Proof.
  intros W Hle. unfold lines_intersection. rewrite W. split.
  - destruct (crossings l1 l2 lo hi) as [|c cs] eqn:C; [intros _|destruct pos; discriminate].
    assert (N : forall j, (lo <= j < lo + (hi - lo))%nat -> crossing l1 l2 j = false).
    { intros j Hj. destruct (crossing l1 l2 j) eqn:X; [|reflexivity]. exfalso.
      assert (I : In j (crossings l1 l2 lo hi)) by (apply in_crossings; split; [lia|exact X]). rewrite C in I. destruct I. }
    pose proof (no_crossing_const l1 l2 lo _ N) as K. destruct (above l1 l2 lo) eqn:A.
    + left. intros i Hi. apply above_spec. apply K. lia.
    + right. intros i Hi. apply above_spec_f. apply K. lia.
  - intros H. destruct (crossings l1 l2 lo hi) as [|c cs] eqn:C; [reflexivity|]. exfalso.
    assert (I : In c (crossings l1 l2 lo hi)) by (rewrite C; now left). apply in_crossings in I as [B X]. apply crossing_spec in X.
    destruct H as [H|H]; pose proof (H c ltac:(lia)); pose proof (H (S c) ltac:(lia)); lra.
Qed.
(** The errors: only limits with both ends missing, or a position that is neither 'first' nor 'last' when there is a crossing. *)
Theorem C64_errors n l1 l2 pos x_lims e : lines_intersection n l1 l2 pos x_lims = inl e ->
  e = ValueError /\ (x_lims = Some (None, None) \/ pos = P_other).
Proof.
  unfold lines_intersection. destruct (window n x_lims) as [e'|[lo hi]] eqn:W.
  - unfold window in W. destruct x_lims as [[[a|] [b|]]|]; inversion W; subst. intros E; inversion E; subst. auto.
  - destruct (crossings l1 l2 lo hi); [discriminate|]. destruct pos; try discriminate. intros E; inversion E. auto.
Qed.
(** A crossing is found for every window holding one, with either position. *)
Theorem C64_found n l1 l2 pos x_lims lo hi j : window n x_lims = inr (lo, hi) -> (lo <= j < hi)%nat -> pos <> P_other ->
  (l1 j < line2_at l2 j /\ line2_at l2 (S j) <= l1 (S j)) \/ (line2_at l2 j <= l1 j /\ l1 (S j) < line2_at l2 (S j)) ->
  exists p, lines_intersection n l1 l2 pos x_lims = inr (Some p).
Proof.
  intros W Hj Hp X. unfold lines_intersection. rewrite W. apply crossing_spec in X.
  assert (I : In j (crossings l1 l2 lo hi)) by (now apply in_crossings).
  destruct (crossings l1 l2 lo hi) as [|c cs]; [destruct I|]. destruct pos; [eexists; reflexivity|eexists; reflexivity|congruence].
Qed.
Example C64_example : exists p, lines_intersection 3 INR (L_scalar (1 / 2)) P_first None = inr (Some p) /\ p = (1 / 2, 1 / 2).
Proof.
  assert (W : window 3 None = inr (0, 2)%nat) by reflexivity.
  destruct (C64_found 3 INR (L_scalar (1/2)) P_first None 0 2 0 W) as [[px py] Hp]; [lia|discriminate|left; simpl; lra|].
  exists (px, py). split; [exact Hp|].
  destruct (C64_point_on_both_curves _ _ _ _ _ _ _ Hp) as (lo & hi & i & W' & B & _ & X & R & E1 & E2 & F).
  rewrite W in W'. inversion W'; subst. assert (i = 0)%nat as ->.
  { specialize (F 0%nat ltac:(lia)). assert (crossing INR (L_scalar (1 / 2)) 0 = true) by (apply crossing_spec; left; simpl; lra). specialize (F H). lia. }
  simpl in *. f_equal; lra.
Qed.

(** * C121: circular masks *)
(** Without taper and without super sampling every value is 0 or 1, being 1 exactly within the radius. *)
Theorem C121_sharp ds os off l :
  (mask_sharp_vol 1 ds os off l = 1 <-> mask_dist 1 ds os (ss_index 1 l (map (fun _ => 0%nat) ds)) <= max_radius ds off)
  /\ (mask_sharp_vol 1 ds os off l = 0 \/ mask_sharp_vol 1 ds os off l = 1).
Proof.
  unfold mask_sharp_vol.
  assert (E : forall f, bsum (map (fun _ : nat => 1%nat) ds) f / INR (size (map (fun _ => 1%nat) ds)) = f (map (fun _ => 0%nat) ds)).
  { clear. intros f. assert (S1 : size (map (fun _ : nat => 1%nat) ds) = 1%nat).
    { induction ds; simpl; [reflexivity|]. unfold size in *. simpl. rewrite IHds. reflexivity. }
    rewrite S1. revert f. induction ds as [|d ds IH]; intros f; simpl; [field|].
    specialize (IH ltac:(unfold size in *; simpl in S1; lia) (fun m => f (0%nat :: m))). simpl in IH. rewrite <- IH. lra. }
  rewrite E. unfold mask_sharp. destruct (Rle_dec _ _); split; try (split; intros; auto; lra); auto.
Qed.
Lemma bsum_1 s : bsum s (fun _ => 1) = INR (size s).
Proof.
  induction s as [|n s IH]; simpl; [reflexivity|]. rewrite rsum_const. rewrite IH. unfold size. simpl. now rewrite mult_INR.
Qed.
Lemma size_pos s : (forall n, In n s -> (0 < n)%nat) -> (0 < size s)%nat.
Proof. induction s as [|n s IH]; intros H; simpl; [unfold size; simpl; lia|]. unfold size in *. simpl. apply Nat.mul_pos_pos; [apply H; now left|apply IH; intros; apply H; now right]. Qed.
(** With super sampling the value is the covered fraction: in [0, 1]; and a larger radius never covers less. *)
Theorem C121_super_sampling ss ds os off off' l : (0 < ss)%nat -> off <= off' ->
  0 <= mask_sharp_vol ss ds os off l <= mask_sharp_vol ss ds os off' l /\ mask_sharp_vol ss ds os off' l <= 1.
Proof.
  intros Hs Ho. unfold mask_sharp_vol.
  assert (P : 0 < INR (size (map (fun _ => ss) ds))).
  { apply lt_0_INR, size_pos. intros n Hn. apply in_map_iff in Hn as (? & <- & _). exact Hs. }
  assert (I : 0 < / INR (size (map (fun _ => ss) ds))) by now apply Rinv_0_lt_compat.
  split; [split|].
  - apply Rdiv_le_0_compat; [|exact P]. apply bsum_nonneg. intros d _. unfold mask_sharp. destruct (Rle_dec _ _); lra.
  - apply Rmult_le_compat_r; [lra|]. apply bsum_le. intros d _. unfold mask_sharp, max_radius in *.
    destruct (Rle_dec _ _), (Rle_dec _ _); lra.
  - apply Rmult_le_reg_r with (INR (size (map (fun _ => ss) ds))); [exact P|]. unfold Rdiv.
    rewrite Rmult_assoc, Rinv_l, Rmult_1_r, Rmult_1_l by lra. rewrite <- bsum_1. apply bsum_le. intros d _. unfold mask_sharp. destruct (Rle_dec _ _); lra.
Qed.
(** With the cosine taper and a cut-off beyond the mask radius: 1 inside, 0 from the cut-off on, in [0, 1] and
    non-increasing with the distance. *)
Theorem C121_cos_taper ds off t dist : max_radius ds off < cut_off_radius ds off t ->
  exists v, mask_cos ds off t dist = Some v /\ 0 <= v <= 1
    /\ (dist <= max_radius ds off -> v = 1) /\ (cut_off_radius ds off t <= dist -> v = 0).
Proof.
  intros H. unfold mask_cos. destruct (Req_EM_T _ 0); [lra|]. eexists. split; [reflexivity|].
  set (sz := cut_off_radius ds off t - max_radius ds off) in *. set (a := Rmax (dist - max_radius ds off) 0 / sz * PI).
  pose proof (COS_bound a) as [C1 C2]. destruct (Rlt_dec dist (cut_off_radius ds off t)) as [L|L]; split; try lra; split; intros Hd; try lra.
  unfold a. rewrite Rmax_right by lra. unfold Rdiv. rewrite !Rmult_0_l, cos_0. lra.
Qed.
Theorem C121_cos_taper_antitone ds off t d1 d2 v1 v2 : max_radius ds off < cut_off_radius ds off t -> d1 <= d2 ->
  mask_cos ds off t d1 = Some v1 -> mask_cos ds off t d2 = Some v2 -> v2 <= v1.
Proof.
  intros H Hd. unfold mask_cos. destruct (Req_EM_T _ 0); [discriminate|].
  set (sz := cut_off_radius ds off t - max_radius ds off) in *. intros E1 E2. inversion E1 as [F1]; inversion E2 as [F2]. clear E1 E2 F1 F2.
  assert (Sz : 0 < sz) by (unfold sz; lra).
  assert (B : forall d, 0 <= Rmax (d - max_radius ds off) 0 / sz * PI).
  { intros d. apply Rmult_le_pos; [|left; apply PI_RGT_0]. apply Rdiv_le_0_compat; [apply Rmax_r|exact Sz]. }
  pose proof (COS_bound (Rmax (d1 - max_radius ds off) 0 / sz * PI)). pose proof (COS_bound (Rmax (d2 - max_radius ds off) 0 / sz * PI)).
  destruct (Rlt_dec d2 _) as [L2|L2], (Rlt_dec d1 _) as [L1|L1]; try lra.
  assert (U : forall d, d < cut_off_radius ds off t -> Rmax (d - max_radius ds off) 0 / sz * PI <= PI).
  { intros d L. rewrite <- (Rmult_1_l PI) at 2. apply Rmult_le_compat_r; [left; apply PI_RGT_0|].
    apply Rmult_le_reg_r with sz; [exact Sz|]. unfold Rdiv. rewrite Rmult_assoc, Rinv_l, Rmult_1_r, Rmult_1_l by lra.
    apply Rmax_lub; unfold sz; lra. }
  assert (C : cos (Rmax (d2 - max_radius ds off) 0 / sz * PI) <= cos (Rmax (d1 - max_radius ds off) 0 / sz * PI)).
  { apply cos_decr_1; try apply B; try (apply U; assumption).
    apply Rmult_le_compat_r; [left; apply PI_RGT_0|]. apply Rmult_le_compat_r; [left; now apply Rinv_0_lt_compat|].
    apply Rmax_lub; [|apply Rmax_r]. eapply Rle_trans; [|apply Rmax_l]. lra. }
  lra.
Qed.
(** Where the taper ends, per target, stated with the side [s] of the smallest ball axis: at the edge (s/2), at the corner
    of the square of side s, or at the requested distance beyond the edge; positive before, zero from there on. *)
Definition taper_end_spec (s : R) (t : taper_target) : R :=
  match t with T_edge => s / 2 | T_diagonal => sqrt ((s / 2) ^ 2 + (s / 2) ^ 2) | T_value v => s / 2 + v end.
Theorem C121_taper_end ds off t dist v : (forall u, t = T_value u -> off < u) ->
  min_side ds / 2 + off < taper_end_spec (min_side ds) t ->
  mask_cos ds off t dist = Some v -> (v = 0 <-> taper_end_spec (min_side ds) t <= dist) /\ 0 <= v.
Proof.
  intros Hv H. assert (S0 : 0 <= min_side ds) by apply pos_INR.
  assert (E : cut_off_radius ds off t = taper_end_spec (min_side ds) t).
  { destruct t as [| |u]; unfold cut_off_radius, taper_end_spec; [reflexivity| |].
    - set (s := min_side ds) in *. assert (P2 : 0 < sqrt 2) by (apply sqrt_lt_R0; lra).
      symmetry. apply sqrt_lem_1; [nra| |].
      + apply Rdiv_le_0_compat; assumption.
      + replace (s / sqrt 2 * (s / sqrt 2)) with (s * s / (sqrt 2 * sqrt 2)) by (field; lra). rewrite sqrt_sqrt by lra. field.
    - rewrite Rmax_left; [reflexivity|]. left. apply Hv. reflexivity. }
  unfold mask_cos. fold (max_radius ds off) in H. rewrite E. set (c := taper_end_spec (min_side ds) t) in *. clearbody c.
  destruct (Req_EM_T _ 0); [lra|]. set (sz := c - max_radius ds off) in *. assert (Sz : 0 < sz) by (unfold sz; lra).
  intros F. injection F as F. set (a := Rmax (dist - max_radius ds off) 0 / sz * PI) in *. pose proof (COS_bound a) as [K1 K2].
  destruct (Rlt_dec dist c) as [L|L]; [|split; [split; intros; lra|lra]].
  assert (A0 : 0 <= a). { unfold a. apply Rmult_le_pos; [|left; apply PI_RGT_0]. apply Rdiv_le_0_compat; [apply Rmax_r|exact Sz]. }
  assert (A1 : a < PI).
  { unfold a. rewrite <- (Rmult_1_l PI) at 2. apply Rmult_lt_compat_r; [apply PI_RGT_0|].
    apply Rmult_lt_reg_r with sz; [exact Sz|]. unfold Rdiv. rewrite Rmult_assoc, Rinv_l, Rmult_1_r, Rmult_1_l by lra.
    apply Rmax_lub_lt; unfold sz; lra. }
  assert (cos PI < cos a) by (apply cos_decreasing_1; try lra; apply PI_RGT_0 || (left; apply PI_RGT_0)). rewrite cos_PI in *.
  split; [split; intros; lra|lra].
Qed.
(** the side the radii are computed from is the shortest of the image *)
Theorem C121_shortest_side ds : ds <> [] -> (exists d, In d ds /\ min_side ds = INR d) /\ forall d, In d ds -> min_side ds <= INR d.
Proof.
  intros H. unfold min_side. destruct ds as [|d0 ds]; [now elim H|]. cbn [hd].
  assert (G : forall l, (fold_right Nat.min d0 l = d0 \/ In (fold_right Nat.min d0 l) l) /\ forall d, In d l -> (fold_right Nat.min d0 l <= d)%nat).
  { induction l as [|a l [I L]]; cbn [fold_right]; [split; [now left|intros d []]|]. split.
    - destruct (Nat.min_spec a (fold_right Nat.min d0 l)) as [[_ ->]|[_ ->]]; [right; now left|]. destruct I as [I|I]; [now left|right; now right].
    - intros d [<-|Hd]; [lia|]. pose proof (L d Hd). lia. }
  destruct (G (d0 :: ds)) as [I L]. split.
  - eexists. split; [|reflexivity]. destruct I as [->|I]; [now left|exact I].
  - intros d Hd. apply le_INR. now apply L.
Qed.
Example C121_taper_end_example : exists v, mask_cos [10%nat; 12%nat] 0 (T_value 3) 6 = Some v /\ min_side [10%nat; 12%nat] / 2 + 0 < taper_end_spec (min_side [10%nat; 12%nat]) (T_value 3).
Proof.
  unfold mask_cos, cut_off_radius, max_radius, taper_end_spec. rewrite Rmax_left by lra. destruct (Req_EM_T _ 0); [lra|]. eexists. split; [reflexivity|]. lra.
Qed.
(** REFUTED for the documented defaults: with taper_func='cos', taper_target='edge' and radius_offset=0 every value is NaN. *)
Theorem C121_cos_edge_nan_refuted ds dist : mask_cos ds 0 T_edge dist = None.
Proof. unfold mask_cos, cut_off_radius, max_radius. destruct (Req_EM_T _ 0); [reflexivity|]. exfalso. apply n. ring. Qed.
(** the hypothesis of C121_cos_taper holds for the diagonal target with no offset *)
Example C121_taper_example : max_radius [10%nat; 10%nat] 0 < cut_off_radius [10%nat; 10%nat] 0 T_diagonal.
Proof.
  unfold max_radius, cut_off_radius, min_side. simpl. set (c := 1 + 1 + 1 + 1 + 1 + 1 + 1 + 1 + 1 + 1). replace c with 10 by (unfold c; ring).
  assert (0 < sqrt 2) by (apply sqrt_lt_R0; lra). assert (sqrt 2 < 2).
  { apply Rsqr_incrst_0; try lra. unfold Rsqr. rewrite sqrt_sqrt; lra. }
  rewrite Rplus_0_r. unfold Rdiv. apply Rmult_lt_compat_l; [lra|]. apply Rinv_lt_contravar; [|lra]. nra.
Qed.

(** * C122: normalised cross-correlation *)
Lemma shift_sum_le n z (g : nat -> R) : (forall i, 0 <= g i) ->
  rsum n (fun k => let q := (Z.of_nat k - z)%Z in if ((0 <=? q) && (q <? Z.of_nat n))%Z then g (Z.to_nat q) else 0) <= rsum n g.
Proof.
  intros H. cbv zeta. destruct (Z.le_gt_cases 0 z) as [Hz|Hz].
  - destruct (Nat.le_gt_cases n (Z.to_nat z)) as [L|L].
    + rewrite rsum_zero; [now apply rsum_nonneg|]. intros i Hi. destruct (Z.leb_spec 0 (Z.of_nat i - z)); [lia|reflexivity].
    + replace n with (Z.to_nat z + (n - Z.to_nat z))%nat at 1 by lia. rewrite rsum_app.
      rewrite rsum_zero by (intros i Hi; destruct (Z.leb_spec 0 (Z.of_nat i - z)); [lia|reflexivity]).
      rewrite (rsum_ext _ _ g).
      2:{ intros i Hi. destruct (Z.leb_spec 0 (Z.of_nat (Z.to_nat z + i) - z)); [|lia]. destruct (Z.ltb_spec (Z.of_nat (Z.to_nat z + i) - z) (Z.of_nat n)); [|lia].
          simpl. f_equal. lia. }
      replace n with ((n - Z.to_nat z) + Z.to_nat z)%nat at 2 by lia. rewrite rsum_app.
      assert (0 <= rsum (Z.to_nat z) (fun i => g (n - Z.to_nat z + i)%nat)) by (apply rsum_nonneg; auto). lra.
  - set (m := Z.to_nat (- z)). destruct (Nat.le_gt_cases n m) as [L|L].
    + rewrite rsum_zero; [now apply rsum_nonneg|]. intros i Hi. destruct (Z.ltb_spec (Z.of_nat i - z) (Z.of_nat n)); [lia|].
      now rewrite andb_false_r.
    + replace n with ((n - m) + m)%nat at 1 by lia. rewrite rsum_app.
      rewrite (rsum_zero m).
      2:{ intros i Hi. destruct (Z.ltb_spec (Z.of_nat (n - m + i) - z) (Z.of_nat n)); [lia|]. now rewrite andb_false_r. }
      rewrite (rsum_ext _ _ (fun i => g (m + i)%nat)).
      2:{ intros i Hi. destruct (Z.leb_spec 0 (Z.of_nat i - z)); [|lia]. destruct (Z.ltb_spec (Z.of_nat i - z) (Z.of_nat n)); [|lia].
          simpl. f_equal. lia. }
      replace n with (m + (n - m))%nat at 2 by lia. rewrite rsum_app.
      assert (0 <= rsum m g) by (apply rsum_nonneg; auto). lra.
Qed.
Lemma read_shift_energy s : forall x p, length p = length s ->
  bsum s (fun l => read_shift s x p l * read_shift s x p l) <= bsum s (fun l => x l * x l).
Proof.
  induction s as [|n s IH]; intros x p Hp; simpl; [lra|]. destruct p as [|z p]; [discriminate|]. simpl in Hp.
  set (g := fun i => bsum s (fun l => x (i :: l) * x (i :: l))).
  apply Rle_trans with (rsum n (fun k => let q := (Z.of_nat k - z)%Z in if ((0 <=? q) && (q <? Z.of_nat n))%Z then g (Z.to_nat q) else 0)).
  - apply rsum_le. intros k Hk. cbv zeta. destruct ((0 <=? Z.of_nat k - z) && (Z.of_nat k - z <? Z.of_nat n))%Z.
    + apply (IH (fun t => x (Z.to_nat (Z.of_nat k - z) :: t)) p). lia.
    + rewrite (bsum_ext s _ (fun _ => 0)) by (intros; ring). rewrite bsum_0. lra.
  - apply shift_sum_le. intros i. apply bsum_nonneg. intros. apply Rle_0_sqr.
Qed.
Lemma read_shift_0 s : forall x l, inb s l -> read_shift s x (map (fun _ => 0%Z) s) l = x l.
Proof.
  induction s as [|n s IH]; intros x l H; [inversion H; reflexivity|]. destruct l as [|k l]; [inversion H|].
  apply inb_cons in H as [Hk Hl]. simpl. rewrite Z.sub_0_r. destruct (Z.leb_spec 0 (Z.of_nat k)); [|lia]. destruct (Z.ltb_spec (Z.of_nat k) (Z.of_nat n)); [|lia].
  simpl. rewrite IH by exact Hl. now rewrite Nat2Z.id.
Qed.
Lemma adot_nonneg s x : 0 <= adot s x x.
Proof. apply bsum_nonneg. intros. apply Rle_0_sqr. Qed.
Lemma adot_CS s x y : Rabs (adot s x y) <= sqrt (adot s x x) * sqrt (adot s y y).
Proof.
  assert (C : (adot s x y) ^ 2 <= adot s x x * adot s y y).
  { unfold adot. rewrite !bsum_flat. set (f := fun k => x (unflat s k)). set (g := fun k => y (unflat s k)).
    pose proof (rsum_CS (size s) f g) as Q.
    rewrite (rsum_ext _ (fun i => f i ^ 2) (fun i => f i * f i)) in Q by (intros; ring).
    rewrite (rsum_ext _ (fun i => g i ^ 2) (fun i => g i * g i)) in Q by (intros; ring). exact Q. }
  rewrite <- sqrt_mult by apply adot_nonneg. rewrite <- sqrt_Rsqr_abs. apply sqrt_le_1_alt. unfold Rsqr. lra.
Qed.
Lemma cross_corr_bound s x y p : length p = length s -> Rabs (cross_corr s x y p) <= sqrt (adot s x x) * sqrt (adot s y y).
Proof.
  intros Hp. eapply Rle_trans; [apply (adot_CS s x (read_shift s y p))|].
  apply Rmult_le_compat_l; [apply sqrt_pos|]. apply sqrt_le_1_alt. now apply read_shift_energy.
Qed.
Lemma cc_lags_length full s k : length k = length s -> length (cc_lags full s k) = length s.
Proof. revert k. induction s as [|n s IH]; intros [|i k] H; simpl in *; try discriminate; [reflexivity|]. now rewrite IH by lia. Qed.

(** The output of norm_cross_corr is ordered like FFT frequencies: position k of an axis holds the lag
    k for k <= (d - 1)/2 and k - d beyond, d being the output length, in both modes: it matches the coordinates used by
    azimuthal_integration(domain="fourier"). *)
Theorem C122_lag_order full n k : (0 < n)%nat -> (k < cc_len full n)%nat ->
  IZR (cc_lag full n k) = az_coord AzFourier (cc_len full n) k.
Proof.
  intros Hn Hk. unfold cc_lag, cc_len, az_coord, ifftshift_idx in *. destruct full.
  - assert (E : ((2 * n - 1) / 2 = n - 1)%nat) by (pose proof (Nat.div_mod (2 * n - 1) 2 ltac:(lia)); pose proof (Nat.mod_upper_bound (2 * n - 1) 2 ltac:(lia)); lia).
    rewrite E. replace (2 * n - 1 - 1)%nat with ((n - 1) * 2)%nat by lia. rewrite Nat.div_mul by lia.
    destruct (Nat.leb_spec k (n - 1)) as [L|L].
    + rewrite Nat.mod_small by lia. rewrite INR_IZR_INZ. f_equal. lia.
    + assert (M : ((k + (n - 1)) mod (2 * n - 1) = k - n)%nat).
      { replace (k + (n - 1))%nat with ((k - n) + 1 * (2 * n - 1))%nat by lia. rewrite Nat.mod_add by lia. apply Nat.mod_small. lia. }
      rewrite M, !INR_IZR_INZ, <- minus_IZR. f_equal. lia.
  - assert (S2 : ((n - 1) / 2 + n / 2 = n - 1)%nat).
    { pose proof (Nat.div_mod n 2 ltac:(lia)). pose proof (Nat.div_mod (n - 1) 2 ltac:(lia)).
      pose proof (Nat.mod_upper_bound n 2 ltac:(lia)). pose proof (Nat.mod_upper_bound (n - 1) 2 ltac:(lia)). lia. }
    destruct (Nat.leb_spec k ((n - 1) / 2)) as [L|L].
    + rewrite Nat.mod_small by lia. rewrite INR_IZR_INZ. f_equal. lia.
    + assert (M : ((k + n / 2) mod n = k + n / 2 - n)%nat).
      { replace (k + n / 2)%nat with ((k + n / 2 - n) + 1 * n)%nat at 1 by lia. rewrite Nat.mod_add by lia. apply Nat.mod_small. lia. }
      rewrite M, !INR_IZR_INZ, <- minus_IZR. f_equal. lia.
Qed.
Lemma cc_lag_0 full n : (0 < n)%nat -> cc_lag full n 0 = 0%Z.
Proof.
  intros Hn. apply eq_IZR. rewrite C122_lag_order; [reflexivity|exact Hn|]. unfold cc_len. destruct full; lia.
Qed.
Lemma cc_lags_0 full s : (forall n, In n s -> (0 < n)%nat) -> cc_lags full s (map (fun _ => 0%nat) s) = map (fun _ => 0%Z) s.
Proof. induction s as [|n s IH]; intros H; simpl; [reflexivity|]. rewrite cc_lag_0 by (apply H; now left). rewrite IH; [reflexivity|]. intros; apply H; now right. Qed.
Lemma sqrt_le_stack m s (x : nat -> arr) i : (i < m)%nat -> sqrt (adot s (x i) (x i)) <= sqrt (rsum m (fun j => adot s (x j) (x j))).
Proof. intros Hi. apply sqrt_le_1_alt. apply (rsum_term_le m (fun j => adot s (x j) (x j))); [intros; apply adot_nonneg|exact Hi]. Qed.

(** Every value of the normalised cross-correlation lies in [-1, 1] (a zero image gives a 0/0, excluded). *)
Theorem C122_bounded full m s img1 img2 i k : (i < m)%nat -> length k = length s ->
  0 < rsum m (fun j => adot s (img1 j) (img1 j)) -> 0 < rsum m (fun j => adot s (img2 j) (img2 j)) ->
  Rabs (norm_cross_corr full m s img1 img2 i k) <= 1.
Proof.
  intros Hi Hk P1 P2. unfold norm_cross_corr. set (i' := ifftshift_idx m i).
  assert (Hi' : (i' < m)%nat) by (apply Nat.mod_upper_bound; lia).
  set (a := sqrt (rsum m (fun j => adot s (img1 j) (img1 j)))). set (b := sqrt (rsum m (fun j => adot s (img2 j) (img2 j)))).
  assert (Pa : 0 < a) by now apply sqrt_lt_R0. assert (Pb : 0 < b) by now apply sqrt_lt_R0.
  assert (Pab : 0 < a * b) by now apply Rmult_lt_0_compat.
  unfold Rdiv. rewrite Rabs_mult, (Rabs_right (/ (a * b))) by (left; now apply Rinv_0_lt_compat).
  apply Rmult_le_reg_r with (a * b); [exact Pab|]. rewrite Rmult_assoc, Rinv_l, Rmult_1_r, Rmult_1_l by lra.
  eapply Rle_trans; [apply cross_corr_bound; now apply cc_lags_length|].
  apply Rmult_le_compat; try apply sqrt_pos; now apply sqrt_le_stack.
Qed.
(** The auto-correlation of a single non-zero image is 1 at position 0 (the zero lag). *)
Theorem C122_autocorrelation_peak full s img : (forall n, In n s -> (0 < n)%nat) -> 0 < adot s img img ->
  norm_cross_corr full 1 s (fun _ => img) (fun _ => img) 0 (map (fun _ => 0%nat) s) = 1.
Proof.
  intros Hs P. unfold norm_cross_corr. rewrite cc_lags_0 by exact Hs. cbn [rsum]. rewrite Rplus_0_l.
  rewrite sqrt_sqrt by lra. unfold cross_corr. rewrite (bsum_ext s _ (fun l => img l * img l)) by (intros l Hl; now rewrite read_shift_0).
  change (bsum s (fun l => img l * img l)) with (adot s img img). field. lra.
Qed.
(** ... and so is the first value of the profile. *)
Lemma az_sumsq_0 s full : (forall n, In n s -> (0 < n)%nat) -> forall l, inb (map (cc_len full) s) l ->
  az_lower AzFourier (map (cc_len full) s) l = 0%nat <-> l = map (fun _ => 0%nat) s.
Proof.
  intros Hs l Hl.
  assert (Z0 : az_sumsq AzFourier (map (cc_len full) s) (map (fun _ => 0%nat) s) = 0).
  { clear. induction s as [|n s IH]; simpl; [reflexivity|]. rewrite IH. ring. }
  assert (Dich : l = map (fun _ => 0%nat) s \/ 1 <= az_sumsq AzFourier (map (cc_len full) s) l).
  { revert l Hl. clear Z0. induction s as [|n s IH]; intros l Hl; [left; inversion Hl; reflexivity|].
    destruct l as [|k l]; [inversion Hl|]. apply inb_cons in Hl as [Hk Hl].
    destruct (IH ltac:(intros; apply Hs; now right) l Hl) as [->|H1].
    - destruct k as [|k]; [left; reflexivity|]. right. cbn [az_sumsq map].
      assert (Hp : 0 <= az_sumsq AzFourier (map (cc_len full) s) (map (fun _ => 0%nat) s)).
      { clear. induction s as [|d s IH]; cbn [az_sumsq map]; [lra|]. pose proof (pow2_ge_0 (az_coord AzFourier (cc_len full d) 0)). lra. }
      assert (1 <= az_coord AzFourier (cc_len full n) (S k) ^ 2); [|lra].
      unfold az_coord. set (d := cc_len full n) in *. destruct (S k <=? (d - 1) / 2)%nat.
      + rewrite S_INR. pose proof (pos_INR k). nra.
      + assert (INR (S k) + 1 <= INR d) by (rewrite <- S_INR; apply le_INR; lia). nra.
    - right. cbn [az_sumsq map]. pose proof (pow2_ge_0 (az_coord AzFourier (cc_len full n) k)). lra. }
  split.
  - intros E. destruct Dich as [|H]; [assumption|]. exfalso. pose proof (az_lower_bounds AzFourier (map (cc_len full) s) l) as [_ B].
    rewrite E in B. simpl in B. unfold az_radius in B. assert (1 <= sqrt (az_sumsq AzFourier (map (cc_len full) s) l)).
    { rewrite <- sqrt_1. now apply sqrt_le_1_alt. } lra.
  - intros ->. unfold az_lower, az_radius. rewrite Z0, sqrt_0. rewrite (rfloor_unique 0 0%Z); [reflexivity|lra].
Qed.
Lemma bsum_single s f l0 : inb s l0 -> (forall l, inb s l -> l <> l0 -> f l = 0) -> bsum s f = f l0.
Proof.
  revert f l0. induction s as [|n s IH]; intros f l0 H0 H; [inversion H0; reflexivity|].
  destruct l0 as [|k l0]; [inversion H0|]. apply inb_cons in H0 as [Hk H0]. simpl. rewrite (rsum_single _ _ k Hk).
  - apply (IH (fun t => f (k :: t))); [exact H0|]. intros l Hl Hne. apply H; [now apply inb_cons|congruence].
  - intros i Hi Hne. rewrite (bsum_ext s _ (fun _ => 0)); [apply bsum_0|]. intros l Hl. apply H; [now apply inb_cons|congruence].
Qed.
Lemma az_profile_0 s full img : (forall n, In n s -> (0 < n)%nat) ->
  az_profile AzFourier (map (cc_len full) s) img 0 = img (map (fun _ => 0%nat) s).
Proof.
  intros Hs. set (ds := map (cc_len full) s). set (o := map (fun _ : nat => 0%nat) s).
  assert (Ho : inb ds o).
  { unfold ds, o. clear ds o. induction s as [|n s IH]; simpl; [constructor|]. apply inb_cons. split; [|apply IH; intros; apply Hs; now right].
    assert (0 < n)%nat by (apply Hs; now left). unfold cc_len. destruct full; lia. }
  assert (L0 : az_lower AzFourier ds o = 0%nat) by now apply az_sumsq_0.
  assert (R0 : az_radius AzFourier ds o = 0).
  { unfold az_radius. replace (az_sumsq AzFourier ds o) with 0; [apply sqrt_0|]. unfold ds, o. clear. induction s as [|n s IH]; simpl; [reflexivity|]. rewrite <- IH. ring. }
  unfold az_profile. rewrite (bsum_single ds _ o Ho).
  - rewrite L0. simpl. unfold az_w_l. rewrite L0, R0. simpl. ring.
  - intros l Hl Hne. assert (az_lower AzFourier ds l <> 0%nat) by (intros E; apply Hne; now apply (az_sumsq_0 s full Hs l Hl)).
    destruct (Nat.eqb_spec (az_lower AzFourier ds l) 0); [contradiction|]. simpl. ring.
Qed.
Theorem C122_profile_peak full s img : (forall n, In n s -> (0 < n)%nat) -> 0 < adot s img img ->
  ncc_profile full 1 s (fun _ => img) (fun _ => img) 0 0 = 1.
Proof.
  intros Hs P. unfold ncc_profile. rewrite !az_profile_0 by exact Hs. rewrite C122_autocorrelation_peak by assumption. field.
Qed.
(** Profile values are averages of correlation values, hence in [-1, 1] in every bin that receives pixels. *)
Theorem C122_profile_bounded full m s img1 img2 i k : (i < m)%nat ->
  0 < rsum m (fun j => adot s (img1 j) (img1 j)) -> 0 < rsum m (fun j => adot s (img2 j) (img2 j)) ->
  0 < az_profile AzFourier (map (cc_len full) s) (fun _ => 1) k ->
  Rabs (ncc_profile full m s img1 img2 i k) <= 1.
Proof.
  intros Hi P1 P2 Po. unfold ncc_profile. set (ds := map (cc_len full) s) in *. set (cc := norm_cross_corr full m s img1 img2 i).
  assert (B : forall l, inb ds l -> -1 <= cc l <= 1).
  { intros l Hl. pose proof (inb_length _ _ Hl) as Ll. unfold ds in Ll. rewrite map_length in Ll.
    pose proof (C122_bounded full m s img1 img2 i l Hi Ll P1 P2) as Q. fold cc in Q. revert Q. unfold Rabs. destruct (Rcase_abs _); lra. }
  assert (U : az_profile AzFourier ds cc k <= az_profile AzFourier ds (fun _ => 1) k).
  { apply Rminus_le. replace (az_profile AzFourier ds cc k - az_profile AzFourier ds (fun _ => 1) k)
      with (- (1 * az_profile AzFourier ds (fun _ => 1) k + -1 * az_profile AzFourier ds cc k)) by ring.
    rewrite <- C63_linear. apply Ropp_le_cancel. rewrite Ropp_involutive, Ropp_0. apply C63_profile_nonneg. intros l Hl. pose proof (B l Hl). lra. }
  assert (L : - az_profile AzFourier ds (fun _ => 1) k <= az_profile AzFourier ds cc k).
  { apply Rminus_le. replace (- az_profile AzFourier ds (fun _ => 1) k - az_profile AzFourier ds cc k)
      with (- (1 * az_profile AzFourier ds (fun _ => 1) k + 1 * az_profile AzFourier ds cc k)) by ring.
    rewrite <- C63_linear. apply Ropp_le_cancel. rewrite Ropp_involutive, Ropp_0. apply C63_profile_nonneg. intros l Hl. pose proof (B l Hl). lra. }
  unfold Rdiv. rewrite Rabs_mult, (Rabs_right (/ _)) by (left; now apply Rinv_0_lt_compat).
  apply Rmult_le_reg_r with (az_profile AzFourier ds (fun _ => 1) k); [exact Po|]. rewrite Rmult_assoc, Rinv_l, Rmult_1_r, Rmult_1_l by lra.
  apply Rabs_le. lra.
Qed.
(** REFUTED for stacks: the final ifftshift also rolls the stack axis, so that with two images the results are swapped:
    entry 0 holds the correlation of pair 1. *)
Theorem C122_stack_swapped_refuted : exists (x : nat -> arr),
  adot [1%nat] (x 0%nat) (x 0%nat) = 1 /\ adot [1%nat] (x 1%nat) (x 1%nat) = 0
  /\ norm_cross_corr true 2 [1%nat] x x 0 [0%nat] = 0 /\ norm_cross_corr true 2 [1%nat] x x 1 [0%nat] = 1.
Proof.
  exists (fun j _ => match j with O => 1 | _ => 0 end).
  unfold norm_cross_corr, cross_corr, adot, ifftshift_idx. simpl.
  replace (0 + (0 + 1 * 1) + (0 + 0 * 0)) with 1 by ring. rewrite sqrt_1. repeat split; field.
Qed.
(** REFUTED: template matching (t_match) raises for every non-square image and for every image with three or more axes. *)
Theorem C122_template_matching_refuted :
  (forall h w, (0 < h)%nat -> (0 < w)%nat -> (exists u, t_match_check [h; w] = inr u) <-> h = w)
  /\ (forall s, (3 <= length s)%nat -> t_match_check s = inl ValueError).
Proof.
  split.
  - intros h w Hh Hw. unfold t_match_check, local_sum_shape, pad_width_of, local_sum_len, full_shape. cbn [map].
    destruct (list_eq_dec _ _ _) as [E|E]; split.
    + intros _. inversion E. lia.
    + intros _. eexists; reflexivity.
    + intros [u Hu]. discriminate.
    + intros ->. exfalso. apply E. f_equal; [lia|]. f_equal. lia.
  - intros s Hs. unfold t_match_check, local_sum_shape. destruct s as [|a [|b [|c r]]]; simpl in Hs; try lia. reflexivity.
Qed.
(** ... with ValueError, for an image that is not square. *)
Theorem C122_template_error h w : (0 < h)%nat -> (0 < w)%nat -> h <> w -> t_match_check [h; w] = inl ValueError.
Proof.
  intros Hh Hw N. unfold t_match_check, local_sum_shape, pad_width_of, local_sum_len, full_shape. cbn [map].
  destruct (list_eq_dec _ _ _) as [E|E]; [|reflexivity]. inversion E. lia.
Qed.
