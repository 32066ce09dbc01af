(** C203: SART's residuals and tolerance. *)
From Verif Require Import Sums DataTermsModel SolversModel SolversSpec SolversGeneric SolversProps SartTolModel.

(** ** Specification: the masked residual of a volume, all slices, angles and pixels *)
Definition true_residual (V U W : nat) (op : sart_op) (b : nat -> vec) (b_mask : option (nat -> vec)) (x : vec) : R :=
  sqrt (rsum V (fun v => rsum W (fun a => rsum U (fun u =>
    let p := (v * U + u)%nat in ((sA op x a p - b a p) * match b_mask with Some m => m a p | None => 1 end) ^ 2)))).

Section Run.
  Context (n V U W : nat) (op : sart_op) (b : nat -> vec) (b_mask : option (nat -> vec)) (relax : R)
          (x0 : option vec) (lo up x_mask : option vec) (rows : list nat).
  Let sweep := sart_sweep op b b_mask (sart_sigma (V * U) W op x_mask) (sart_tau n W op relax b_mask) lo up x_mask rows.
  Let plain := sart_call n (V * U) W op b b_mask relax x0 lo up x_mask rows.
  Let with_tolerance tol := sart_tol_call n V U W op b b_mask relax tol x0 lo up x_mask rows.
  Let reported := sart_residual_norm V U W op b b_mask.

  Lemma plain_iterate k : plain k = iterate (fun _ => sweep) k (pick_x0 x0 vzeros).
  Proof.
    unfold plain, sart_call. fold sweep.
    assert (H : forall k i x, for_range k i (fun _ x => (sweep x, false)) x = iterate (fun _ => sweep) k x).
    { clear. induction k as [|k IH]; intros i x; [reflexivity|]. cbn [for_range]. rewrite IH. clear.
      induction k as [|k IH]; [reflexivity|]. cbn [iterate]. rewrite IH. reflexivity. }
    apply H.
  Qed.

  Theorem C203_no_tolerance : forall it, exists f, with_tolerance None it = inr (plain it, f) /\ i_iterations f = it /\
    i_residual0 f = None /\ forall k, i_residuals f k = 0.
  Proof.
    intros it. unfold with_tolerance, sart_tol_call. fold sweep.
    pose proof (post_loop (fun _ => sweep) reported (fun _ => 0) false false (fun _ => false) (pick_x0 x0 vzeros) (new_info it None) it) as H.
    rewrite (for_range_ext it 0 (sart_body V U W op b b_mask None sweep) (post_body (fun _ => sweep) reported (fun _ => 0) false false (fun _ => false))).
    2:{ intros k [x f]. reflexivity. }
    destruct (for_range it 0 _ _) as [x f].
    assert (H0 : booked false false (fun k => reported (iterate (fun _ => sweep) (S k) (pick_x0 x0 vzeros))) (fun _ => 0) 0 (new_info it None) (new_info it None)) by (repeat split; reflexivity).
    destruct (H H0) as (K & HK & (B1 & B2 & B3 & B4 & B5 & B6 & _) & -> & _ & [(_ & E)|(-> & _)]); [discriminate|].
    exists f. rewrite plain_iterate. split; [reflexivity|]. split; [exact B1|]. split; [exact B2|]. intros k. rewrite B6. reflexivity.
  Qed.

  (** where shapes allow it: the recorded residuals are [reported], the iterations stop at the first sweep below the tolerance *)
  Theorem C203_bookkeeping : forall t it, sart_shapes_ok U W = true ->
    exists res, with_tolerance (Some t) it = inr res /\ stops_after plain reported t it res.
  Proof.
    intros t it Hs. unfold with_tolerance, sart_tol_call. rewrite Hs. fold sweep. eexists. split; [reflexivity|].
    replace plain with (fun k => iterate (fun _ => sweep) k (pick_x0 x0 vzeros)) by (apply functional_extensionality; intros; symmetry; apply plain_iterate).
    set (f0 := set_residual0 _ _).
    pose proof (post_loop (fun _ => sweep) reported (fun _ => 0) true false (below_tol (Some t)) (pick_x0 x0 vzeros) f0 it) as H.
    rewrite (for_range_ext it 0 (sart_body V U W op b b_mask (Some t) sweep) (post_body (fun _ => sweep) reported (fun _ => 0) true false (below_tol (Some t)))).
    2:{ intros k [x f]. reflexivity. }
    destruct (for_range it 0 _ _) as [x f] eqn:E.
    eapply (stops_after_intro (fun k => iterate (fun _ => sweep) k (pick_x0 x0 vzeros)) reported t it (x, f) true false _ f0 eq_refl); [|reflexivity|reflexivity].
    assert (H0 : booked true false (fun k => reported (iterate (fun _ => sweep) (S k) (pick_x0 x0 vzeros))) (fun _ => 0) 0 f0 f0) by (repeat split; reflexivity).
    specialize (H H0). destruct H as (K & HK & B & -> & C & D).
    exists K. split; [exact HK|]. split; [exact B|]. split; [reflexivity|]. split; [exact C|exact D].
  Qed.
End Run.

(** ** How the reported number relates to the residual *)
(** any slices, as many angles as pixels: the residual of the projections with angles and pixels exchanged *)
Theorem C203_reported_square : forall V N op b b_mask x,
  sart_residual_norm V N N op b b_mask x =
  sqrt (rsum V (fun v => rsum N (fun a => rsum N (fun u =>
    ((sA op x u (v * N + a)%nat - b a (v * N + u)%nat) * match b_mask with Some m => m a (v * N + u)%nat | None => 1 end) ^ 2)))).
Proof.
  intros V N op b b_mask x. unfold sart_residual_norm. rewrite Nat.max_id. f_equal. apply rsum_ext. intros v _. apply rsum_ext. intros a Ha. apply rsum_ext. intros u Hu.
  f_equal. unfold sart_residual.
  assert (E : forall k, (k < N)%nat -> bc N k = k). { intros k Hk. unfold bc. destruct (Nat.eqb_spec N 1); [lia|reflexivity]. }
  rewrite !E by assumption. destruct b_mask; ring.
Qed.
(** so it is right when the projections are symmetric in (angle, pixel) - and for one angle of one pixel *)
Theorem C203_symmetric_projections : forall V N op b b_mask x,
  (forall v a u, (v < V)%nat -> (a < N)%nat -> (u < N)%nat -> sA op x a (v * N + u)%nat = sA op x u (v * N + a)%nat) ->
  sart_residual_norm V N N op b b_mask x = true_residual V N N op b b_mask x.
Proof.
  intros V N op b b_mask x H. rewrite C203_reported_square. unfold true_residual. f_equal. apply rsum_ext. intros v Hv. apply rsum_ext. intros a Ha. apply rsum_ext. intros u Hu.
  cbv zeta. rewrite <- (H v a u Hv Ha Hu). reflexivity.
Qed.
(** other shapes: with a tolerance every call fails, whatever the data *)
Theorem C203_other_shapes_refuted : forall n V U W op b b_mask relax t x0 lo up x_mask rows it,
  U <> W -> U <> 1%nat -> W <> 1%nat ->
  sart_tol_call n V U W op b b_mask relax (Some t) x0 lo up x_mask rows it = inl ValueError.
Proof.
  intros n V U W op b b_mask relax t x0 lo up x_mask rows it H1 H2 H3. unfold sart_tol_call, sart_shapes_ok.
  destruct (Nat.eqb_spec U W), (Nat.eqb_spec U 1), (Nat.eqb_spec W 1); try contradiction. reflexivity.
Qed.
(** one angle, U pixels (also: one pixel, W angles): every pixel is compared with every other *)
Theorem C203_reported_one_angle : forall V U op b x, (1 <= U)%nat ->
  sart_residual_norm V U 1 op b None x = sqrt (rsum V (fun v => rsum U (fun i => rsum U (fun j => (sA op x 0%nat (v * U + i)%nat - b 0%nat (v * U + j)%nat) ^ 2)))).
Proof.
  intros V U op b x HU. unfold sart_residual_norm. rewrite Nat.max_l by exact HU. f_equal. apply rsum_ext. intros v _. apply rsum_ext. intros i Hi. apply rsum_ext. intros j Hj.
  f_equal. unfold sart_residual, bc. destruct (Nat.eqb_spec U 1); [|reflexivity]. cbn. replace i with 0%nat by lia. replace j with 0%nat by lia. reflexivity.
Qed.

(** ** A noiseless problem: two voxels, two angles of two pixels; angle 0 sees (x0, x1), angle 1 sees (x0, x0) *)
Definition tiny_op : sart_op :=
  mkSart (fun x a p => match a, p with O, O => x 0%nat | O, _ => x 1%nat | _, _ => x 0%nat end)
         (fun y a j => match a, j with O, O => y 0%nat | O, _ => y 1%nat | _, O => y 0%nat + y 1%nat | _, _ => 0 end).
Definition tiny_volume : vec := fun j => INR j.
Definition tiny_data : nat -> vec := fun a p => sA tiny_op tiny_volume a p.
Lemma tiny_residual x y : x 0%nat = tiny_volume 0%nat -> x 1%nat = tiny_volume 1%nat ->
  sart_residual_norm 1 2 2 tiny_op tiny_data y x = match y with None => sqrt 2 | Some _ => sart_residual_norm 1 2 2 tiny_op tiny_data y x end.
Proof.
  intros H0 H1. destruct y; [reflexivity|]. rewrite C203_reported_square. f_equal. cbn [rsum tiny_op sA tiny_data Nat.mul Nat.add]. rewrite H0, H1.
  unfold tiny_volume. cbn [INR]. ring.
Qed.
Lemma tiny_stays rows relax : forall x, x 0%nat = tiny_volume 0%nat -> x 1%nat = tiny_volume 1%nat ->
  let x' := sart_sweep tiny_op tiny_data None (sart_sigma (1 * 2) 2 tiny_op None) (sart_tau 2 2 tiny_op relax None) None None None rows x in
  x' 0%nat = tiny_volume 0%nat /\ x' 1%nat = tiny_volume 1%nat.
Proof.
  unfold sart_sweep. induction rows as [|a rows IH]; intros x H0 H1; [split; assumption|]. cbn [fold_left]. apply IH.
  - unfold sart_row, constrain, np_clip, mul_mask, vsub, vmul, option_map. cbn [sAt tiny_op sA tiny_data]. destruct a; rewrite H0, ?H1; ring.
  - unfold sart_row, constrain, np_clip, mul_mask, vsub, vmul, option_map. cbn [sAt tiny_op sA tiny_data]. destruct a; rewrite H1; ring.
Qed.
(** started at the exact solution, SART with tolerance 1 records the residual sqrt 2 at every sweep and never stops early,
    though the residual is 0 throughout *)
Theorem C203_exact_volume_refuted : forall it relax rows, exists x f,
  sart_tol_call 2 1 2 2 tiny_op tiny_data None relax (Some 1) (Some tiny_volume) None None None rows it = inr (x, f) /\
  i_iterations f = it /\ true_residual 1 2 2 tiny_op tiny_data None x = 0 /\ i_residual0 f = Some (sqrt 2) /\
  forall k, (k < it)%nat -> i_residuals f k = sqrt 2.
Proof.
  intros it relax rows.
  assert (P : forall k, let x := sart_call 2 (1 * 2) 2 tiny_op tiny_data None relax (Some tiny_volume) None None None rows k in
                        x 0%nat = tiny_volume 0%nat /\ x 1%nat = tiny_volume 1%nat).
  { intros k. cbv zeta. pose proof (plain_iterate 2 1 2 2 tiny_op tiny_data None relax (Some tiny_volume) None None None rows k) as E. rewrite E. clear E.
    induction k as [|k IH]; [split; reflexivity|]. cbn [iterate]. destruct IH as [I0 I1]. apply tiny_stays; assumption. }
  assert (Q : 1 <= sqrt 2). { rewrite <- sqrt_1 at 1. apply sqrt_le_1_alt. lra. }
  destruct (C203_bookkeeping 2 1 2 2 tiny_op tiny_data None relax (Some tiny_volume) None None None rows 1 it eq_refl) as ([x f] & E & B).
  cbv zeta in B. destruct B as (B1 & B2 & B3 & B4 & B5 & B6 & B7 & B8).
  assert (T : forall k, sart_residual_norm 1 2 2 tiny_op tiny_data None (sart_call 2 (1 * 2) 2 tiny_op tiny_data None relax (Some tiny_volume) None None None rows k) = sqrt 2).
  { intros k. destruct (P k) as [P0 P1]. apply (tiny_residual _ None); assumption. }
  assert (K : i_iterations f = it). { destruct B8 as [[_ B]|[B _]]; [|exact B]. rewrite T in B. lra. }
  exists x, f. split; [exact E|]. split; [exact K|]. split; [|split].
  - assert (P01 : x 0%nat = tiny_volume 0%nat /\ x 1%nat = tiny_volume 1%nat) by (rewrite B7; apply P). destruct P01 as [P0 P1]. clear B7 E B8. unfold true_residual. cbn [rsum]. cbv zeta. cbn [Nat.mul Nat.add tiny_op sA tiny_data]. rewrite P0, P1.
    replace (0 + _) with 0 by ring. apply sqrt_0.
  - rewrite B3. f_equal. apply T.
  - intros k Hk. rewrite B4 by lia. apply T.
Qed.
(** and it stops at once on a volume whose residual is sqrt 2, reporting 0 *)
Definition turned_data : nat -> vec := fun a p => sA tiny_op tiny_volume p a.
Theorem C203_wrong_stop_refuted :
  sart_residual_norm 1 2 2 tiny_op turned_data None tiny_volume = 0 /\ true_residual 1 2 2 tiny_op turned_data None tiny_volume = sqrt 2.
Proof.
  split.
  - rewrite C203_reported_square. replace (rsum 1 _) with 0; [apply sqrt_0|]. cbn [rsum turned_data Nat.mul Nat.add tiny_op sA]. unfold tiny_volume. cbn [INR]. ring.
  - unfold true_residual. f_equal. cbn [rsum]. cbv zeta. cbn [turned_data Nat.mul Nat.add tiny_op sA]. unfold tiny_volume. cbn [INR]. ring.
Qed.
