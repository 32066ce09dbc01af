(** Attenuation maps, materials and compounds (C89, C92, C147, C148). *)
From Coq Require Import Reals Lra Lia List ZArith String Bool Permutation.
From Verif Require Import Sums PyErr Arrays Rounding Reindex PhysicsModel PhysicsProps.
Import ListNotations.
Open Scope R_scope.

(** ** C89: the maps do not depend on the order in which the threads finish *)
Lemma process_ok th v : forall order m, NoDup order -> exists m', process_angles th (fun i => inr (v i)) order m = inr m' /\ forall i, m' i = if in_dec Nat.eq_dec i order then m i * v i else m i.
Proof.
  induction order as [|j r IH]; intros m N.
  - exists m. split; [reflexivity|]. intros i. destruct (in_dec Nat.eq_dec i []) as [H|_]; [destruct H|reflexivity].
  - inversion N as [|? ? Nj Nr]; subst. destruct (IH (upd m j (m j * v j)) Nr) as (m' & E & H). exists m'. split; [exact E|]. intros i. rewrite H.
    unfold upd. destruct (Nat.eqb_spec i j) as [->|D].
    + destruct (in_dec Nat.eq_dec j r); [contradiction|]. destruct (in_dec Nat.eq_dec j (j :: r)) as [_|X]; [reflexivity|exfalso; apply X; now left].
    + destruct (in_dec Nat.eq_dec i r) as [Y|Y], (in_dec Nat.eq_dec i (j :: r)) as [Z|Z]; try reflexivity; exfalso.
      * apply Z. now right.
      * destruct Z as [->|Z]; [now apply D|contradiction].
Qed.
Definition value_of (o : option (nat -> R)) (i : nat) : R := match o with Some f => f i | None => 1 end.
Definition task (o : option (nat -> R)) : option (nat -> py_err + R) := match o with Some f => Some (fun i => inr (f i)) | None => None end.
Lemma perm_in n i o : Permutation o (seq 0 n) -> In i o <-> (i < n)%nat.
Proof. intros P. split; intros H; [apply (Permutation_in i P) in H; apply in_seq in H; lia|]. apply (Permutation_in i (Permutation_sym P)). apply in_seq. lia. Qed.
Lemma perm_nodup n o : Permutation o (seq 0 n) -> NoDup o. Proof. intros P. apply (Permutation_NoDup (Permutation_sym P)), seq_NoDup. Qed.
(** for every number of angles and every completion order of the two batches, threaded or not *)
Theorem C89_maps_are_products : forall th n order_in order_out vin vout, Permutation order_in (seq 0 n) -> Permutation order_out (seq 0 n) ->
  exists m, compute_maps th order_in order_out (task vin) (task vout) = inr m /\ forall i, (i < n)%nat -> m i = value_of vin i * value_of vout i.
Proof.
  intros th n oi oo vin vout Pi Po. unfold compute_maps.
  assert (A : exists m, match task vin with Some f => process_angles th f oi (fun _ => 1) | None => inr (fun _ => 1) end = inr m /\ forall i, (i < n)%nat -> m i = value_of vin i).
  { destruct vin as [f|]; cbn [task value_of]; [|eexists; split; [reflexivity|reflexivity]]. destruct (process_ok th f oi (fun _ => 1) (perm_nodup n oi Pi)) as (m & E & H). exists m. split; [exact E|].
    intros i Hi. rewrite H. destruct (in_dec Nat.eq_dec i oi) as [_|X]; [ring|exfalso; apply X; now apply (perm_in n)]. }
  destruct A as (m & -> & Hm). destruct vout as [f|]; cbn [task value_of].
  - destruct (process_ok th f oo m (perm_nodup n oo Po)) as (m' & E & H). exists m'. split; [exact E|]. intros i Hi. rewrite H, <- Hm by exact Hi.
    destruct (in_dec Nat.eq_dec i oo) as [_|X]; [reflexivity|exfalso; apply X; now apply (perm_in n)].
  - exists m. split; [reflexivity|]. intros i Hi. rewrite Hm by exact Hi. ring.
Qed.
Lemma process_err th f : forall order m, (forall i e, f i = inl e -> e = ValueError) -> (exists i e, In i order /\ f i = inl e) -> process_angles th f order m = inl (if th then RuntimeError else ValueError).
Proof.
  induction order as [|j r IH]; intros m A (i & e & Hi & He); [destruct Hi|]. cbn [process_angles]. destruct (f j) as [e'|v] eqn:Ej.
  - rewrite (A j e' Ej). destruct th; reflexivity.
  - apply IH; [exact A|]. destruct Hi as [->|Hi]; [congruence|]. eauto.
Qed.
(** when an angle fails: always an exception, whatever the order; but a ValueError becomes a RuntimeError when threaded *)
Theorem C89_failing_angle : forall th n order_in order_out fin fout, Permutation order_in (seq 0 n) -> (forall i e, fin i = inl e -> e = ValueError) -> (exists i e, (i < n)%nat /\ fin i = inl e) ->
  compute_maps th order_in order_out (Some fin) fout = inl (if th then RuntimeError else ValueError).
Proof.
  intros th n oi oo fin fout P A (i & e & Hi & He). unfold compute_maps. rewrite process_err; [reflexivity|exact A|]. exists i, e. split; [now apply (perm_in n)|exact He].
Qed.
Example C89_order_example : exists m, compute_maps true [2; 0; 1]%nat [1; 2; 0]%nat (task (Some (fun i => / INR (S i)))) (task (Some (fun _ => / 2))) = inr m /\ m 1%nat = / 4.
Proof.
  assert (P1 : Permutation [2; 0; 1]%nat (seq 0 3)) by (cbn; apply perm_trans with [0; 2; 1]%nat; constructor; repeat constructor).
  assert (P2 : Permutation [1; 2; 0]%nat (seq 0 3)) by (cbn; apply perm_trans with [1; 0; 2]%nat; [apply perm_skip; constructor|constructor]).
  destruct (C89_maps_are_products true 3 _ _ (Some (fun i => / INR (S i))) (Some (fun _ => / 2)) P1 P2) as (m & E & H). exists m. split; [exact E|]. rewrite H by lia. cbn [value_of INR]. lra.
Qed.
(** the maps lie in [0, 1] when the transmissions do *)
Theorem C89_maps_bounded : forall th n order_in order_out vin vout m, Permutation order_in (seq 0 n) -> Permutation order_out (seq 0 n) -> (forall i, 0 <= value_of vin i <= 1) -> (forall i, 0 <= value_of vout i <= 1) ->
  compute_maps th order_in order_out (task vin) (task vout) = inr m -> forall i, (i < n)%nat -> 0 <= m i <= 1 /\ m i <= value_of vin i /\ m i <= value_of vout i.
Proof.
  intros th n oi oo vin vout m Pi Po A B E i Hi. destruct (C89_maps_are_products th n oi oo vin vout Pi Po) as (m' & E' & H). rewrite E in E'. injection E' as <-. rewrite H by exact Hi.
  specialize (A i). specialize (B i). repeat split; nra.
Qed.

(** selecting one map with an integer index *)
Lemma firstn_skipn_nth {A} (l : list A) d : forall k, (k < List.length l)%nat -> firstn 1 (skipn k l) = [nth k l d].
Proof. induction l as [|a l IH]; intros k Hk; cbn in Hk; [lia|]. destruct k; [reflexivity|]. cbn [skipn nth]. apply IH. lia. Qed.
Theorem C89_get_maps_in_range : forall {A} (maps : list A) d i, (0 <= i < Z.of_nat (List.length maps))%Z -> get_maps_int maps i = [nth (Z.to_nat i) maps d].
Proof.
  intros A maps d i H. unfold get_maps_int, slice_list, slice_pos. destruct (Z.ltb_spec (i + 1) 0); [lia|]. destruct (Z.ltb_spec i 0); [lia|].
  rewrite !Z.min_r, !Z.max_r by lia. replace (Z.to_nat (i + 1) - Z.to_nat i)%nat with 1%nat by lia. apply firstn_skipn_nth. lia.
Qed.
Theorem C89_get_maps_negative : forall {A} (maps : list A) d i, (- Z.of_nat (List.length maps) <= i < -1)%Z -> get_maps_int maps i = [nth (Z.to_nat (i + Z.of_nat (List.length maps))) maps d].
Proof.
  intros A maps d i H. unfold get_maps_int, slice_list, slice_pos. destruct (Z.ltb_spec (i + 1) 0); [|lia]. destruct (Z.ltb_spec i 0); [|lia].
  rewrite !Z.min_r, !Z.max_r by lia. replace (Z.to_nat (i + 1 + Z.of_nat (List.length maps)) - Z.to_nat (i + Z.of_nat (List.length maps)))%nat with 1%nat by lia. apply firstn_skipn_nth. lia.
Qed.
(** refuted: the last map cannot be selected with -1, and an index past the end gives no maps instead of an IndexError *)
Theorem C89_last_map_refuted : forall {A} (maps : list A), get_maps_int maps (-1) = [] /\ (forall i, (Z.of_nat (List.length maps) <= i)%Z -> get_maps_int maps i = []).
Proof.
  intros A maps. unfold get_maps_int, slice_list, slice_pos. split.
  - change (-1 + 1)%Z with 0%Z. destruct (Z.ltb_spec (-1) 0); [|lia]. destruct (Z.ltb_spec 0 0); [lia|]. replace (Z.to_nat (Z.max 0 (Z.min (Z.of_nat (List.length maps)) 0))) with 0%nat by lia. reflexivity.
  - intros i Hi. destruct (Z.ltb_spec i 0); [lia|]. destruct (Z.ltb_spec (i + 1) 0); [lia|]. rewrite !Z.min_l by lia. rewrite Nat.sub_diag. reflexivity.
Qed.
Theorem C89_detector_minus_one_refuted : forall {A} (maps : list A) angles a, detector_angles (angles ++ [a]) (IInt (-1)) = inr [a] /\ get_maps_int maps (-1) = [].
Proof.
  intros A maps angles a. split; [|exact (proj1 (C89_last_map_refuted maps))]. unfold detector_angles. rewrite app_length. cbn [List.length].
  destruct (Z.leb_spec (- Z.of_nat (List.length angles + 1)) (-1)); [|lia]. destruct (Z.ltb_spec (-1) (Z.of_nat (List.length angles + 1))); [|lia]. cbn [andb].
  change (Z.ltb (-1) 0) with true. cbv iota. replace (Z.to_nat (-1 + Z.of_nat (List.length angles + 1))) with (List.length angles) by lia. rewrite nth_middle. reflexivity.
Qed.
(** an index selects one detector, counted from the front or from the back; one out of range is refused *)
Theorem C89_detector_index : forall angles z,
  (forall i a, nth_error angles i = Some a -> detector_angles angles (IInt (Z.of_nat i)) = inr [a] /\ detector_angles angles (IInt (Z.of_nat i - Z.of_nat (List.length angles))) = inr [a])
  /\ ((z < - Z.of_nat (List.length angles) \/ Z.of_nat (List.length angles) <= z)%Z -> detector_angles angles (IInt z) = inl IndexError).
Proof.
  intros angles z. split.
  - intros i a E. pose proof (proj1 (nth_error_Some angles i) ltac:(congruence)) as L. unfold detector_angles. set (n := List.length angles) in *.
    assert (N : nth i angles 0 = a) by now apply nth_error_nth. split.
    + destruct (Z.leb_spec (- Z.of_nat n) (Z.of_nat i)); [|lia]. destruct (Z.ltb_spec (Z.of_nat i) (Z.of_nat n)); [|lia]. cbn [andb]. destruct (Z.ltb_spec (Z.of_nat i) 0); [lia|]. now rewrite Nat2Z.id, N.
    + destruct (Z.leb_spec (- Z.of_nat n) (Z.of_nat i - Z.of_nat n)); [|lia]. destruct (Z.ltb_spec (Z.of_nat i - Z.of_nat n) (Z.of_nat n)); [|lia]. cbn [andb]. destruct (Z.ltb_spec (Z.of_nat i - Z.of_nat n) 0); [|lia].
      replace (Z.of_nat i - Z.of_nat n + Z.of_nat n)%Z with (Z.of_nat i) by lia. now rewrite Nat2Z.id, N.
  - intros H. unfold detector_angles. destruct (Z.leb_spec (- Z.of_nat (List.length angles)) z); destruct (Z.ltb_spec z (Z.of_nat (List.length angles))); cbn [andb]; try reflexivity; lia.
Qed.
(** refuted: the documented slices and sequences of detector indices are not accepted by get_projector_args, and "int" angles are not accepted *)
Theorem C89_detector_selection_refuted : forall angles, detector_angles angles ISlice = inl AttributeError /\ detector_angles angles ISeq = inl TypeError.
Proof. split; reflexivity. Qed.
Theorem C89_integer_angle_refuted : forall z l, (forall a, In a l -> exists x, a = DFloat x) -> det_all (l ++ [DInt z]) = inl ValueError.
Proof.
  intros z. induction l as [|a l IH]; intros H; [reflexivity|]. destruct (H a (or_introl eq_refl)) as [x ->]. cbn [app det_all det_one]. rewrite IH; [reflexivity|]. intros b Hb. apply H. now right.
Qed.
Theorem C89_detectors_kept : forall l, (forall a, In a l -> match a with DInt _ => False | _ => True end) ->
  det_all l = inr (map (fun a => match a with DFloat x => (0, 1, x) | DDet s d x => (s, d, x) | DInt _ => (0, 0, 0) end) l).
Proof. induction l as [|a l IH]; intros H; [reflexivity|]. cbn [det_all map]. rewrite IH by (intros; apply H; now right). specialize (H a (or_introl eq_refl)). destruct a; [reflexivity|destruct H|reflexivity]. Qed.
(** the constructor accepts exactly: at least one volume, equal shapes, two or three dimensions *)
Theorem C89_volumes_accepted_iff : forall inc emi s, att_vol_shape inc emi = inr s <->
  ((inc = Some s /\ emi = None) \/ (inc = None /\ emi = Some s) \/ (inc = Some s /\ emi = Some s)) /\ (List.length s = 2 \/ List.length s = 3)%nat.
Proof.
  intros inc emi s. unfold att_vol_shape.
  assert (G : forall t, (if (Nat.eqb (List.length t) 2 || Nat.eqb (List.length t) 3)%bool then inr t else inl ValueError) = inr s <-> t = s /\ (List.length s = 2 \/ List.length s = 3)%nat).
  { intros t. destruct (Nat.eqb_spec (List.length t) 2) as [E|E]; cbn [orb]; [split; [intros [= <-]; auto|intros [-> _]; reflexivity]|].
    destruct (Nat.eqb_spec (List.length t) 3) as [E'|E']; [split; [intros [= <-]; auto|intros [-> _]; reflexivity]|]. split; [discriminate|]. intros [-> [?|?]]; contradiction. }
  destruct inc as [t|], emi as [u|].
  - destruct (list_eq_dec Nat.eq_dec t u) as [->|D].
    + rewrite G. split; [intros [-> H]; tauto|]. intros [[[_ H]|[[H _]|[H _]]] L]; try discriminate. injection H as ->. auto.
    + split; [discriminate|]. intros [[[_ H]|[[H _]|[H H']]] L]; try discriminate. congruence.
  - rewrite G. split; [intros [-> H]; tauto|]. intros [[[H _]|[[H _]|[_ H]]] L]; try discriminate. injection H as ->. auto.
  - rewrite G. split; [intros [-> H]; tauto|]. intros [[[H _]|[[_ H]|[H _]]] L]; try discriminate. injection H as ->. auto.
  - split; [discriminate|]. intros [[[H _]|[[_ H]|[H _]]] L]; discriminate.
Qed.

(** the sub-angles of an extended detector *)
Lemma sub_angle_nth s d n i : 0 < s -> (i < n)%nat -> nth i (sub_angles s d n) 0 = - half_angle s d + INR (2 * i + 1) * (half_angle s d / INR n).
Proof.
  intros Hs Hi. unfold sub_angles. destruct (Rlt_dec 0 s) as [_|X]; [|contradiction].
  assert (Hn : INR n <> 0) by (apply not_0_INR; lia).
  rewrite (nth_indep _ 0 ((linspace (- half_angle s d) (half_angle s d) (n + 1) 0 + linspace (- half_angle s d) (half_angle s d) (n + 1) 1) / 2)) by (rewrite map_length, seq_length; lia).
  change ((linspace (- half_angle s d) (half_angle s d) (n + 1) 0 + linspace (- half_angle s d) (half_angle s d) (n + 1) 1) / 2) with ((fun i => (linspace (- half_angle s d) (half_angle s d) (n + 1) i + linspace (- half_angle s d) (half_angle s d) (n + 1) (S i)) / 2) 0%nat).
  rewrite map_nth, seq_nth by lia. unfold linspace. destruct (Nat.eqb_spec (n + 1) 1); [lia|]. replace (n + 1 - 1)%nat with n by lia. cbn [Nat.add]. rewrite S_INR, plus_INR, mult_INR. cbn [INR]. field. exact Hn.
Qed.
Theorem C89_sub_angles : forall s d n, 0 < s -> 0 < d -> (0 < n)%nat -> List.length (sub_angles s d n) = n /\
  (forall i, (i < n)%nat -> fst (angle_range_rad s d) < nth i (sub_angles s d n) 0 < snd (angle_range_rad s d)) /\
  (forall i, (i < n)%nat -> nth (n - 1 - i) (sub_angles s d n) 0 = - nth i (sub_angles s d n) 0) /\
  (forall i, (S i < n)%nat -> nth (S i) (sub_angles s d n) 0 - nth i (sub_angles s d n) 0 = 2 * snd (angle_range_rad s d) / INR n).
Proof.
  intros s d n Hs Hd Hn. assert (Nn : 0 < INR n) by (apply lt_0_INR; lia).
  assert (Hh : 0 < half_angle s d).
  { unfold half_angle. rewrite <- atan_0. apply atan_increasing. pose proof (sqrt_lt_R0 s Hs). apply Rdiv_lt_0_compat; lra. }
  split; [|split; [|split]].
  - unfold sub_angles. destruct (Rlt_dec 0 s); [|contradiction]. now rewrite map_length, seq_length.
  - intros i Hi. rewrite sub_angle_nth by assumption. unfold angle_range_rad. cbn [fst snd].
    assert (A : half_angle s d = INR n * (half_angle s d / INR n)) by (field; lra). assert (P : 0 < half_angle s d / INR n) by (apply Rdiv_lt_0_compat; lra).
    set (q := half_angle s d / INR n) in *. rewrite A. assert (0 < INR (2 * i + 1)) by (apply lt_0_INR; lia).
    assert (B : INR (2 * i + 1) < 2 * INR n) by (replace (2 * INR n) with (INR (2 * n)) by (rewrite mult_INR; cbn [INR]; ring); apply lt_INR; lia). split; nra.
  - intros i Hi. rewrite !sub_angle_nth by (assumption || lia). replace (INR (2 * (n - 1 - i) + 1)) with (2 * INR n - INR (2 * i + 1)).
    + field. lra.
    + replace (2 * (n - 1 - i) + 1)%nat with (2 * n - (2 * i + 1))%nat by lia. rewrite minus_INR, mult_INR by lia. cbn [INR]. ring.
  - intros i Hi. rewrite !sub_angle_nth by (assumption || lia). replace (INR (2 * S i + 1)) with (INR (2 * i + 1) + 2) by (replace (2 * S i + 1)%nat with (2 * i + 1 + 2)%nat by lia; rewrite (plus_INR (2 * i + 1) 2); cbn [INR]; ring).
    unfold angle_range_rad. cbn [snd]. field. lra.
Qed.
Theorem C89_point_detector : forall att rot det d n, att_out att rot det (sub_angles 0 d n) = att (rot + det).
Proof. intros. unfold sub_angles, att_out. destruct (Rlt_dec 0 0); [lra|]. unfold lsum. cbn. rewrite !Rplus_0_r. field. Qed.
Theorem C89_out_between : forall att rot det subs lo hi, subs <> [] -> (forall s, In s subs -> lo <= att (rot + det + s) <= hi) -> lo <= att_out att rot det subs <= hi.
Proof.
  intros att rot det subs lo hi N H. unfold att_out. assert (L : 0 < INR (List.length subs)) by (apply lt_0_INR; destruct subs; [congruence|cbn; lia]).
  assert (K : forall c, lsum subs (fun _ => c) = INR (List.length subs) * c).
  { intros c. clear. induction subs as [|a r IH]; [unfold lsum; cbn; ring|]. unfold lsum in *. cbn [fold_right List.length]. rewrite IH, S_INR. ring. }
  split.
  - apply Rmult_le_reg_r with (INR (List.length subs)); [exact L|]. unfold Rdiv. rewrite Rmult_assoc, Rinv_l, Rmult_1_r by lra. rewrite Rmult_comm, <- K. apply lsum_ge. intros; now apply H.
  - apply Rmult_le_reg_r with (INR (List.length subs)); [exact L|]. unfold Rdiv. rewrite Rmult_assoc, Rinv_l, Rmult_1_r by lra. rewrite (Rmult_comm hi), <- K. apply lsum_ge. intros; now apply H.
Qed.
Example C89_sub_example : nth 0 (sub_angles 4 1 2) 0 = - (PI / 8) /\ nth 1 (sub_angles 4 1 2) 0 = PI / 8.
Proof.
  assert (H : half_angle 4 1 = PI / 4). { unfold half_angle. replace (sqrt 4) with 2 by (symmetry; replace 4 with (2 * 2) by ring; apply sqrt_square; lra). replace (2 / 2 / 1) with 1 by field. apply atan_1. }
  rewrite !sub_angle_nth by (lra || lia). rewrite H. cbn [INR Nat.mul Nat.add]. split; field.
Qed.

(** ** C92: linear attenuation coefficient *)
Theorem C92_formula : forall parse eld cs c px d, exists v c', linear_attenuation parse eld cs (CDict c) px d = inr (v, c') /\
  v = px / 10000 * (match d with Some x => x | None => cdensity c end) * cs (with_density c d).
Proof. intros. eexists _, _. split; [reflexivity|]. destruct d; cbn [with_density cdensity]; field. Qed.
(** linear in the length and in the density; pixels add up (Beer-Lambert over adjacent pixels) *)
Theorem C92_linear : forall parse eld cs a px px' d v v' c c', linear_attenuation parse eld cs a px d = inr (v, c) -> linear_attenuation parse eld cs a px' d = inr (v', c') ->
  linear_attenuation parse eld cs a (px + px') d = inr (v + v', c) /\ exp (- (v + v')) = exp (- v) * exp (- v').
Proof.
  intros parse eld cs a px px' d v v' c c' H H'. split; [|rewrite Ropp_plus_distr; apply exp_plus]. unfold linear_attenuation in *. destruct a as [s|c0].
  - destruct (get_compound parse eld s None) as [e|g]; [discriminate|]. injection H as <- <-. injection H' as <- <-. f_equal. f_equal. ring.
  - injection H as <- <-. injection H' as <- <-. f_equal. f_equal. ring.
Qed.
(** refuted: the caller's compound keeps the overriding density, so that a later call without a density uses it *)
Theorem C92_density_override_leaks_refuted : forall parse eld cs c px d, d <> cdensity c -> exists v c', linear_attenuation parse eld cs (CDict c) px (Some d) = inr (v, Some c') /\ c' <> c /\
  exists w, linear_attenuation parse eld cs (CDict c') px None = inr (w, Some c') /\ w = v.
Proof.
  intros parse eld cs c px d H. eexists _, _. split; [reflexivity|]. split; [|eexists; split; reflexivity]. intros E. apply (f_equal cdensity) in E. cbn in E. contradiction.
Qed.
Theorem C92_compound_unchanged : forall parse eld cs c px, (exists v, linear_attenuation parse eld cs (CDict c) px None = inr (v, Some c)) /\
  (forall s d v c', linear_attenuation parse eld cs (CName s) px d = inr (v, c') -> c' = None).
Proof. intros. split; [eexists; reflexivity|]. intros s d v c'. unfold linear_attenuation. destruct (get_compound parse eld s None); [discriminate|]. now intros [= _ <-]. Qed.
(** a name with a density is the same as the compound with that density *)
Theorem C92_name_with_density : forall parse eld cs s px d g v c', get_compound parse eld s (Some d) = inr g -> linear_attenuation parse eld cs (CDict g) px None = inr (v, c') ->
  linear_attenuation parse eld cs (CName s) px (Some d) = inr (v, None).
Proof.
  intros parse eld cs s px d g v c' G H. unfold linear_attenuation, get_compound in *. destruct (parse s) as [[els fr]|]; [|discriminate]. injection G as <-. cbn [with_density cdensity] in *. injection H as <- _. reflexivity.
Qed.
Example C92_example : exists v, linear_attenuation (fun _ => Some ([1; 8]%nat, [1 / 9; 8 / 9])) (fun _ => 1) (fun c => 2 * cdensity c) (CName "H2O") 10000 (Some 3) = inr (v, None) /\ v = 18.
Proof. eexists. split; [reflexivity|]. cbn. lra. Qed.

(** ** C148: compounds *)
Lemma weighted_bounds els : forall fr f lo hi, List.length els = List.length fr -> (forall x, In x fr -> 0 <= x) -> (forall e, In e els -> lo <= f e <= hi) ->
  lo * lsum fr (fun x => x) <= weighted els fr f <= hi * lsum fr (fun x => x).
Proof.
  induction els as [|e els IH]; intros [|x fr] f lo hi L P B; try discriminate; unfold weighted, lsum in *; cbn [combine fold_right fst snd]; [lra|].
  injection L as L. specialize (IH fr f lo hi L). assert (0 <= x) by (apply P; now left). assert (lo <= f e <= hi) by (apply B; now left).
  assert (I : lo * fold_right (fun a acc => a + acc) 0 fr <= fold_right (fun a acc => f (fst a) * snd a + acc) 0 (combine els fr) <= hi * fold_right (fun a acc => a + acc) 0 fr).
  { apply IH; intros; [apply P|apply B]; now right. }
  split; nra.
Qed.
Theorem C148_density_between : forall parse eld name els fr g lo hi, parse name = Some (els, fr) -> List.length els = List.length fr -> (forall x, In x fr -> 0 <= x) -> lsum fr (fun x => x) = 1 ->
  (forall e, In e els -> lo <= eld e <= hi) -> get_compound parse eld name None = inr g -> lo <= cdensity g <= hi.
Proof.
  intros parse eld name els fr g lo hi P L N S B G. unfold get_compound in G. rewrite P in G. injection G as <-. cbn [cdensity]. pose proof (weighted_bounds els fr eld lo hi L N B). rewrite S in H. lra.
Qed.
Theorem C148_given_density_and_name : forall parse eld name d g, get_compound parse eld name (Some d) = inr g -> cdensity g = d /\ cname g = name /\ parse name = Some (elements g, mass_fractions g).
Proof. intros parse eld name d g. unfold get_compound. destruct (parse name) as [[els fr]|]; [|discriminate]. intros [= <-]. auto. Qed.
Theorem C148_unparsable : forall parse eld name d, get_compound parse eld name d = inl ValueError <-> parse name = None.
Proof. intros. unfold get_compound. destruct (parse name) as [[els fr]|]; split; congruence. Qed.
Theorem C148_cross_section_between : forall cs_cp cs_el c lo hi, cs_cp (cname c) = None -> List.length (elements c) = List.length (mass_fractions c) -> (forall x, In x (mass_fractions c) -> 0 <= x) ->
  lsum (mass_fractions c) (fun x => x) = 1 -> (forall e, In e (elements c) -> lo <= cs_el e <= hi) -> lo <= get_compound_cross_section cs_cp cs_el c <= hi.
Proof. intros cs_cp cs_el c lo hi H L N S B. unfold get_compound_cross_section. rewrite H. pose proof (weighted_bounds _ _ cs_el lo hi L N B). rewrite S in H0. lra. Qed.
(** the approximated density is never below the density of the ideal mixture (volumes add up): total mass 1 in the volume sum of fraction / density *)
Definition ideal_volume (els : list nat) (fr : list R) (f : nat -> R) : R := weighted els fr (fun e => / f e).
Lemma weighted_CS els : forall fr f, (forall x, In x fr -> 0 <= x) -> (forall e, In e els -> 0 < f e) -> List.length els = List.length fr ->
  0 <= weighted els fr f /\ 0 <= ideal_volume els fr f /\ (lsum fr (fun x => x)) ^ 2 <= weighted els fr f * ideal_volume els fr f /\ 0 <= lsum fr (fun x => x).
Proof.
  induction els as [|e els IH]; intros [|x fr] f P F L; try discriminate.
  - unfold weighted, ideal_volume, weighted, lsum. cbn. lra.
  - injection L as L. destruct (IH fr f) as (A & B & D & E); [intros; apply P; now right|intros; apply F; now right|exact L|].
    assert (Hx : 0 <= x) by (apply P; now left). assert (Hf : 0 < f e) by (apply F; now left).
    replace (weighted (e :: els) (x :: fr) f) with (f e * x + weighted els fr f) by reflexivity.
    replace (ideal_volume (e :: els) (x :: fr) f) with (/ f e * x + ideal_volume els fr f) by reflexivity.
    replace (lsum (x :: fr) (fun x => x)) with (x + lsum fr (fun x => x)) by reflexivity.
    set (w := weighted els fr f) in *. set (u := ideal_volume els fr f) in *. set (s := lsum fr (fun x => x)) in *. assert (Hi : 0 < / f e) by now apply Rinv_0_lt_compat.
    assert (I : f e * / f e = 1) by (apply Rinv_r; lra). set (a := f e) in *. set (b := / a) in *.
    split; [nra|]. split; [nra|]. split; [|lra].
    (* (x+s)^2 <= (a x + w)(b x + u) = x^2 + x (a u + b w) + w u, and 2 s <= a u + b w *)
    assert (K : 2 * s <= a * u + b * w).
    { assert (Q : (2 * s) ^ 2 <= (a * u + b * w) ^ 2). { apply Rle_trans with (4 * (w * u)); [nra|]. replace (4 * (w * u)) with (4 * (a * b) * (w * u)) by (rewrite I; ring). pose proof (pow2_ge_0 (a * u - b * w)). nra. }
      assert (0 <= a * u + b * w) by nra. apply Rsqr_incr_0; [unfold Rsqr; nra|lra|lra]. }
    assert (0 <= x * (a * u + b * w - 2 * s)) by (apply Rmult_le_pos; lra).
    replace ((a * x + w) * (b * x + u)) with (a * b * x ^ 2 + x * (a * u + b * w) + w * u) by ring. rewrite I. nra.
Qed.
Theorem C148_density_overestimates : forall parse eld name els fr g, parse name = Some (els, fr) -> List.length els = List.length fr -> (forall x, In x fr -> 0 <= x) -> lsum fr (fun x => x) = 1 ->
  (forall e, In e els -> 0 < eld e) -> get_compound parse eld name None = inr g -> 1 / ideal_volume els fr eld <= cdensity g.
Proof.
  intros parse eld name els fr g P L N S B G. unfold get_compound in G. rewrite P in G. injection G as <-. cbn [cdensity]. destruct (weighted_CS els fr eld N B L) as (A & V & D & _). rewrite S in D.
  assert (Vp : 0 < ideal_volume els fr eld) by nra. apply Rmult_le_reg_r with (ideal_volume els fr eld); [exact Vp|]. unfold Rdiv. rewrite Rmult_1_l, Rinv_l by lra. lra.
Qed.
(** refuted: it is not that density: equal masses of densities 1 and 3 make 3/2, not 2 *)
Theorem C148_density_of_mixture_refuted : exists parse eld name els fr g, parse name = Some (els, fr) /\ lsum fr (fun x => x) = 1 /\ get_compound parse eld name None = inr g /\ cdensity g = 2 /\ 1 / ideal_volume els fr eld = 3 / 2.
Proof.
  exists (fun _ => Some ([1; 2]%nat, [1 / 2; 1 / 2])), (fun e => if Nat.eqb e 1 then 1 else 3), "AB"%string, [1; 2]%nat, [1 / 2; 1 / 2]. eexists. split; [reflexivity|].
  split; [unfold lsum; cbn; lra|]. split; [reflexivity|]. split; [unfold weighted, lsum; cbn; lra|]. unfold ideal_volume, weighted, lsum. cbn. field.
Qed.

(** ** C147: volumes of materials *)
Theorem C147_constructor : forall shapes n, volume_material_check shapes n = inr tt <-> List.length shapes = n /\ exists s, shapes <> [] /\ Forall (fun t => t = s) shapes.
Proof.
  intros shapes n. unfold volume_material_check. destruct (Nat.eqb_spec (List.length shapes) n) as [E|E]; cbn [negb]; [|split; [discriminate|intros []; contradiction]].
  destruct shapes as [|s r]; [split; [discriminate|]; intros (_ & s & H & _); congruence|].
  destruct (forallb _ (s :: r)) eqn:F.
  - split; [|reflexivity]. intros _. split; [exact E|]. exists s. split; [discriminate|]. rewrite forallb_forall in F. apply Forall_forall. intros t Ht. specialize (F t Ht). destruct (list_eq_dec Nat.eq_dec s t); [now symmetry|discriminate].
  - split; [discriminate|]. intros (_ & s0 & _ & A). exfalso. rewrite <- Bool.not_true_iff_false in F. apply F. apply forallb_forall. intros t Ht. rewrite Forall_forall in A. rewrite (A t Ht), (A s (or_introl eq_refl)). destruct (list_eq_dec Nat.eq_dec s0 s0); [reflexivity|congruence].
Qed.
Theorem C147_constructor_error : forall shapes n e, volume_material_check shapes n = inl e -> e = ValueError.
Proof. intros shapes n e. unfold volume_material_check. destruct (negb _); [now intros [= <-]|]. destruct shapes; [now intros [= <-]|]. destruct (forallb _ _); [discriminate|now intros [= <-]]. Qed.
Theorem C147_attenuation_mixture : forall v m m', vm_attenuation v (m ++ m') = vm_attenuation v m + vm_attenuation v m' /\ (forall d cs, vm_attenuation v [(1, (d, cs))] = d * cs * v) /\
  (forall k, vm_attenuation v (map (fun p => (k * fst p, snd p)) m) = k * vm_attenuation v m) /\
  (forall k, vm_attenuation (k * v) m = k * vm_attenuation v m).
Proof.
  intros v m m'. unfold vm_attenuation. split; [rewrite lsum_app; ring|]. split; [intros; unfold lsum; cbn; ring|]. split; intros k; [|ring].
  rewrite lsum_map. cbn [fst snd]. rewrite (lsum_ext _ _ (fun p => k * (fst p * fst (snd p) * snd (snd p)))) by (intros; ring). rewrite lsum_scal. ring.
Qed.
Lemma lsum_nn {A} (l : list A) f : (forall a, In a l -> 0 <= f a) -> 0 <= lsum l f. Proof. intros H. rewrite <- (lsum_0 l). now apply lsum_ge. Qed.
(** fractions that sum up to one: the attenuation lies between those of the pure materials *)
Theorem C147_attenuation_between : forall v m lo hi, 0 <= v -> (forall p, In p m -> 0 <= fst p) -> lsum m fst = 1 -> (forall p, In p m -> lo <= vm_attenuation v [(1, snd p)] <= hi) -> lo <= vm_attenuation v m <= hi.
Proof.
  intros v m lo hi Hv Hp S B. assert (E : vm_attenuation v m = lsum m (fun p => fst p * vm_attenuation v [(1, snd p)])).
  { unfold vm_attenuation. rewrite Rmult_comm, <- lsum_scal. apply lsum_ext. intros p _. unfold lsum. cbn. ring. }
  rewrite E. split.
  - replace lo with (lsum m (fun p => fst p * lo)) by (rewrite (lsum_ext _ _ (fun p => lo * fst p)) by (intros; ring); rewrite lsum_scal, S; ring). apply lsum_ge. intros p Hip. apply Rmult_le_compat_l; [now apply Hp|now apply B].
  - replace hi with (lsum m (fun p => fst p * hi)) by (rewrite (lsum_ext _ _ (fun p => hi * fst p)) by (intros; ring); rewrite lsum_scal, S; ring). apply lsum_ge. intros p Hip. apply Rmult_le_compat_l; [now apply Hp|now apply B].
Qed.
(** phase: full wavelengths of path difference *)
Theorem C147_phase_shift : forall v w m m', 0 < w -> vm_phase_shift v w (m ++ m') = vm_phase_shift v w m + vm_phase_shift v w m' /\ (forall delta, vm_phase_shift v w [(1, delta)] * w = - (2 * PI) * (delta * v)).
Proof. intros v w m m' Hw. unfold vm_phase_shift. rewrite lsum_app. split; [ring|]. intros d. unfold lsum. cbn. field. lra. Qed.
(** refuted: the "mass fraction" is the element's mass per unit volume and is not bounded by one *)
Theorem C147_mass_fraction_refuted : forall el d, vm_mass_fraction el [(1, mkCompound "X" [el] [1] d)] = d.
Proof. intros el d. unfold vm_mass_fraction, lsum. cbn. rewrite Nat.eqb_refl. cbn. ring. Qed.
Lemma first_fraction_bounds el : forall els fr f, first_fraction el els fr = Some f -> In f fr.
Proof. induction els as [|e els IH]; intros [|x fr] f; cbn; try discriminate. destruct (Nat.eqb e el); [intros [= <-]; now left|]. intros H. right. now apply (IH fr). Qed.
Theorem C147_mass_fraction_is_density : forall el m, (forall p, In p m -> 0 <= fst p /\ 0 <= cdensity (snd p) /\ forall f, In f (mass_fractions (snd p)) -> 0 <= f <= 1) ->
  0 <= vm_mass_fraction el m <= lsum m (fun p => fst p * cdensity (snd p)).
Proof.
  intros el m H. unfold vm_mass_fraction. split; [apply lsum_nn|apply lsum_ge]; intros p Hp; destruct (H p Hp) as (A & B & F); destruct (first_fraction el _ _) as [f|] eqn:E; try lra.
  - apply first_fraction_bounds in E. specialize (F f E). apply Rmult_le_pos; [now apply Rmult_le_pos|lra].
  - apply first_fraction_bounds in E. specialize (F f E). assert (0 <= fst p * cdensity (snd p)) by now apply Rmult_le_pos. nra.
  - now apply Rmult_le_pos.
Qed.
Theorem C147_absent_element : forall el m, (forall p, In p m -> ~ In el (elements (snd p))) -> vm_mass_fraction el m = 0.
Proof.
  intros el m H. unfold vm_mass_fraction. rewrite (lsum_ext _ _ (fun _ => 0)); [apply lsum_0|]. intros p Hp. specialize (H p Hp). clear Hp. destruct p as [w [nm els fr d]]. cbn [snd elements mass_fractions] in *.
  assert (E : first_fraction el els fr = None); [|now rewrite E]. revert fr. induction els as [|e els IH]; intros [|x fr]; try reflexivity. cbn. destruct (Nat.eqb_spec e el) as [->|_]; [exfalso; apply H; now left|]. apply IH. intros X. apply H. now right.
Qed.
(** refuted: a 10 cm wide sample 51 mm from a 4000 mm^2 detector passes the parallax check (its half size in cm is subtracted from mm), though the
    fraction of the sphere seen from its near and far sides differ by more than the tolerance; and an integer distance is never checked *)
Theorem C147_parallax_units_refuted : parallax_ok (1 / 10) 100 4000 60 true (1 / 10) = true /\ / 10 < solid_angle_sr 4000 (60 - 50) - solid_angle_sr 4000 (60 + 50).
Proof.
  pose proof PI_4 as P4. pose proof PI_RGT_0 as P0. assert (PI3 : 3 < PI). { pose proof PI2_3_2. unfold PI2 in *. lra. }
  unfold parallax_ok, solid_angle_sr. replace (INR 100) with 100 by (rewrite INR_IZR_INZ; reflexivity). replace (60 - 1 / 10 * 100 / 2) with 55 by field. replace (60 + 1 / 10 * 100 / 2) with 65 by field.
  assert (E : forall x, 0 < x -> 4000 / (4 * PI * x ^ 2) = 1000 / x ^ 2 * / PI) by (intros; field; split; lra). rewrite !E by lra. set (q := / PI). 
  assert (Q0 : 0 < q) by (now apply Rinv_0_lt_compat). assert (Q1 : q * 3 < 1) by (unfold q; rewrite <- (Rinv_l PI) by lra; apply Rmult_lt_compat_l; [exact Q0|lra]). assert (Q2 : 1 <= q * 4) by (unfold q; rewrite <- (Rinv_l PI) by lra; apply Rmult_le_compat_l; [apply Rlt_le, Q0|lra]).
  split.
  - rewrite Rmax_left, Rmin_right by nra. destruct (Rlt_dec _ _) as [_|X]; [reflexivity|]. exfalso. apply X. nra.
  - nra.
Qed.
Theorem C147_parallax_int_refuted : forall v n s d tol, 0 < tol -> parallax_ok v n s d false tol = true.
Proof. intros. unfold parallax_ok. destruct (Rlt_dec 0 tol); [reflexivity|contradiction]. Qed.
(** emission towards a detector: proportional to its solid angle and to each line's yield; nothing without the element *)
Theorem C147_fluo : forall v el m y ls ls' s, vm_fluo v el m y ls (Some s) = vm_fluo v el m y ls None * s /\ vm_fluo v el m y (ls ++ ls') None = vm_fluo v el m y ls None + vm_fluo v el m y ls' None /\
  ((forall p, In p m -> ~ In el (elements (snd p))) -> vm_fluo v el m y ls (Some s) = 0) /\ ((forall l, In l ls -> y l = None) -> vm_fluo v el m y ls (Some s) = 0).
Proof.
  intros v el m y ls ls' s. unfold vm_fluo. split; [ring|]. split; [rewrite lsum_app; ring|]. split; intros H.
  - rewrite (C147_absent_element _ _ H). ring.
  - rewrite (lsum_ext ls _ (fun _ => 0)), lsum_0 by (intros l Hl; now rewrite (H l Hl)). ring.
Qed.
Theorem C147_compton : forall v m m' s, vm_compton v m (Some s) = vm_attenuation v m * s /\ vm_compton v (m ++ m') (Some s) = vm_compton v m (Some s) + vm_compton v m' (Some s).
Proof. intros. unfold vm_compton, vm_attenuation. split; [reflexivity|]. rewrite lsum_app. ring. Qed.
(** without a detector the production is not reduced, as for one that sees everything *)
Theorem C147_compton_no_detector : forall v m, vm_compton v m None = vm_compton v m (Some 1).
Proof. reflexivity. Qed.
Theorem C147_compton_angle : forall a d, (compton_angle a d = inl ValueError <-> a = None /\ d = None) /\ (forall x, a = Some x -> compton_angle a d = inr x) /\ (forall x, a = None -> d = Some x -> compton_angle a d = inr x).
Proof. intros [a|] [d|]; cbn; repeat split; try congruence; intros; try (destruct H; congruence); congruence. Qed.
(** the same unknown family is refused here but has energy zero for get_energy; a known one has the same energy *)
Theorem C147_fluo_energy : forall energy rate s, (get_lines s <> [] -> fluo_energy energy rate (LStr s) = get_energy_average energy rate (LStr s)) /\
  (get_lines s = [] -> fluo_energy energy rate (LStr s) = inl ValueError /\ get_energy_average energy rate (LStr s) = inr (Some 0)).
Proof. intros energy rate s. unfold fluo_energy, get_energy_average. cbn [get_lines_list]. destruct (get_lines s); split; intros; try congruence; auto. Qed.
Example C147_example : vm_attenuation 2 [(1 / 2, (1, 3)); (1 / 2, (2, 4))] = 11 /\ volume_material_check [[2; 3]; [2; 3]]%nat 2 = inr tt /\ volume_material_check [[2; 3]; [3; 2]]%nat 2 = inl ValueError.
Proof. split; [unfold vm_attenuation, lsum; cbn; lra|split; reflexivity]. Qed.
