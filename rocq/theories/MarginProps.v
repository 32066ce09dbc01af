(** * C219: what background_from_margin accepts and returns *)
From Coq Require Import Reals Lra Lia List ZArith Bool.
From Verif Require Import Sums Arrays OperatorsModel Rounding PyErr ProcPreModel ProcPreProps ConeBeamModel MarginModel.
Import ListNotations.
Local Open Scope R_scope.

Section Fit.
Variable ints : bool.
Variable fit : nat -> nat -> (nat -> R) -> (nat -> R) -> list R.
Notation bg := (background_from_margin ints fit).

(** One number, a sequence of one number, and that number twice are the same margin. *)
Theorem C219_forms x m ord : bg x (Scalar m) ord = bg x (Seq [m; m]) ord /\ bg x (Seq [m]) ord = bg x (Seq [m; m]) ord.
Proof. split; reflexivity. Qed.

(** What is refused, and that nothing else is: an image without a w axis, a margin of several axes, margins wider
    together than the row, no margin at all. *)
Theorem C219_refused x ord :
  (forall u f a, bg (Line u f) a ord = inl IndexError)
  /\ ((2 <= length (shape_of x))%nat -> bg x Nested ord = inl NotImplementedError
      /\ bg x (Seq []) ord = inl IndexError
      /\ (forall m0 m1 l, (cols x < m0 + m1 + total l)%nat <-> bg x (Seq (m0 :: m1 :: l)) ord = inl ValueError)
      /\ (forall m0 m1 l, (m0 + m1 + total l <= cols x)%nat <-> exists y, bg x (Seq (m0 :: m1 :: l)) ord = inr y)).
Proof.
  split; [reflexivity|]. intros Hr. destruct x as [u f|w u f|v w u f]; [simpl in Hr; lia| |].
  - split; [reflexivity|]. split; [unfold background_from_margin; cbn; destruct u; reflexivity|].
    split; intros m0 m1 l; unfold background_from_margin; cbn [margin_list cols total fold_right]; fold (total l); rewrite Nat.add_assoc;
      destruct (Nat.ltb_spec u (m0 + m1 + total l)) as [L|L]; destruct (order_used (m0 :: m1 :: l) ord); cbn [const_background poly_background];
      (split; [intros H | intros H]); try lia; try reflexivity; try discriminate; try (eexists; reflexivity); try (destruct H; discriminate).
  - split; [reflexivity|]. split; [unfold background_from_margin; cbn; destruct u; reflexivity|].
    split; intros m0 m1 l; unfold background_from_margin; cbn [margin_list cols total fold_right]; fold (total l); rewrite Nat.add_assoc;
      destruct (Nat.ltb_spec u (m0 + m1 + total l)) as [L|L]; destruct (order_used (m0 :: m1 :: l) ord); cbn [const_background poly_background];
      (split; [intros H | intros H]); try lia; try reflexivity; try discriminate; try (eexists; reflexivity); try (destruct H; discriminate).
Qed.

(** The shape: an image gives an image of its own shape; a stack gives a single image [1, w, u] for order zero (also when
    a margin of zero switches the order to zero) and a whole stack [v, w, u] otherwise. *)
Theorem C219_shape x m0 m1 ord y : bg x (Seq [m0; m1]) ord = inr y ->
  shape_of y = match shape_of x with
               | [v; w; u] => if (Nat.eqb ord 0 || Nat.eqb m0 0 || Nat.eqb m1 0)%bool then [1%nat; w; u] else [v; w; u]
               | s => s
               end.
Proof.
  unfold background_from_margin. destruct x as [u f|w u f|v w u f]; cbn [margin_list cols total fold_right]; [discriminate| |].
  - destruct (Nat.ltb u _); [discriminate|]. destruct (order_used _ _); cbn [const_background poly_background]; intros [= <-]; reflexivity.
  - destruct (Nat.ltb u _); [discriminate|]. unfold order_used. cbn [existsb]. destruct m0 as [|m0], m1 as [|m1], ord as [|ord]; cbn [Nat.eqb orb const_background poly_background];
      intros [= <-]; reflexivity.
Qed.

(** It can always be subtracted from the data, and the result has the shape of the data. *)
Theorem C219_subtractable x a ord y : (forall v w u, shape_of x = [v; w; u] -> v <> 0%nat) -> bg x a ord = inr y ->
  broadcast_shape (shape_of x) (shape_of y) = Some (shape_of x).
Proof.
  intros Hv. assert (B1 : forall v, bdim v 1 = Some v).
  { intros v. unfold bdim. destruct (Nat.eqb_spec v 1); [now subst|reflexivity]. }
  assert (B : forall v, bdim v v = Some v) by (intros; unfold bdim; now rewrite Nat.eqb_refl).
  unfold background_from_margin. destruct x as [u f|w u f|v w u f]; [discriminate| |];
    (destruct (margin_list a) as [e|l]; [discriminate|]; destruct (Nat.ltb _ _); [discriminate|]; destruct l as [|m0 [|m1 l]]; try discriminate;
     destruct (order_used _ _); cbn [const_background poly_background]; intros [= <-]; unfold broadcast_shape; cbn; rewrite ?B, ?B1; reflexivity).
Qed.

(** A margin of zero on either side turns any order into order zero. *)
Theorem C219_zero_margin_order x m0 m1 ord : m0 = 0%nat \/ m1 = 0%nat -> bg x (Seq [m0; m1]) ord = bg x (Seq [m0; m1]) 0.
Proof.
  intros H. assert (E : forall o, order_used [m0; m1] o = 0%nat).
  { intros o. unfold order_used. cbn [existsb]. destruct H as [-> | ->]; cbn [Nat.eqb orb]; [reflexivity|]. now rewrite orb_true_r. }
  unfold background_from_margin. destruct x; try reflexivity; cbn [margin_list]; now rewrite !E.
Qed.

(** Order zero: at every pixel the mean of the samples in the two margins of that row -- of that row in all the images,
    for a stack -- whatever the type of the data (nothing is rounded). *)
Theorem C219_mean x m0 m1 y : (0 < m1)%nat -> bg x (Seq [m0; m1]) 0 = inr y ->
  forall v w u, at3 y v w u
  = match x with
    | Stack nv _ n f => rsum nv (fun k => rsum m0 (fun i => f k w i) + rsum m1 (fun i => f k w (n - m1 + i)%nat)) / INR (nv * (m0 + m1))
    | _ => (rsum m0 (fun i => at3 x 0 w i) + rsum m1 (fun i => at3 x 0 w (cols x - m1 + i)%nat)) / INR (m0 + m1)
    end.
Proof.
  intros Hm. assert (E : forall n (z : vec), (m0 + m1 <= n)%nat ->
    side_mean n m0 m1 (m0 + m1) z = (rsum m0 z + rsum m1 (fun i => z (n - m1 + i)%nat)) / INR (m0 + m1)).
  { intros n z L. unfold side_mean, head_sum, tail_sum. destruct (Nat.eqb_spec m1 0); [lia|]. now rewrite !Nat.min_l by lia. }
  unfold background_from_margin. destruct x as [u f|w u f|nv w u f]; [discriminate| |]; cbn [margin_list cols];
    replace (total [m0; m1]) with (m0 + m1)%nat by (cbn; lia);
    (destruct (Nat.ltb_spec u (m0 + m1)) as [|L]; [discriminate|]);
    unfold order_used; (replace (if existsb (Nat.eqb 0) [m0; m1] then 0%nat else 0%nat) with 0%nat by (destruct existsb; reflexivity));
    cbn [const_background]; intros [= <-] v' w' u'; cbn [at3].
  - now rewrite E.
  - rewrite mult_INR, (rsum_ext nv _ (fun k => / INR (m0 + m1) * (rsum m0 (fun i => f k w' i) + rsum m1 (fun i => f k w' (u - m1 + i)%nat)))).
    + rewrite rsum_scal. unfold Rdiv. rewrite Rinv_mult. ring.
    + intros k _. rewrite E by exact L. unfold Rdiv. change (rsum m0 (f k w')) with (rsum m0 (fun i => f k w' i)). ring.
Qed.

(** REFUTED: "a constant image gives that constant", for a margin of more than two entries: it is accepted, the entries after
    the second are not used for the samples but do count in the divisor. *)
Theorem C219_extra_entries_refuted w u c m0 m1 m2 l : (0 < m1)%nat -> (0 < m2)%nat -> 0 < c -> (m0 + m1 + (m2 + total l) <= u)%nat ->
  exists y, bg (Flat w u (fun _ _ => c)) (Seq (m0 :: m1 :: m2 :: l)) 0 = inr y /\ shape_of y = [w; u]
  /\ forall v j k, at3 y v j k = c * (INR (m0 + m1) / INR (m0 + m1 + (m2 + total l))) /\ at3 y v j k < c.
Proof.
  intros H1 H2 Hc Hu. unfold background_from_margin. cbn [margin_list cols].
  replace (total (m0 :: m1 :: m2 :: l)) with (m0 + m1 + (m2 + total l))%nat by (cbn; unfold total; lia).
  destruct (Nat.ltb_spec u (m0 + m1 + (m2 + total l))); [lia|]. unfold order_used.
  replace (if existsb (Nat.eqb 0) (m0 :: m1 :: m2 :: l) then 0%nat else 0%nat) with 0%nat by (destruct existsb; reflexivity).
  cbn [const_background]. eexists. split; [reflexivity|]. split; [reflexivity|]. intros v j k. cbn [at3].
  set (t := (m0 + m1 + (m2 + total l))%nat) in *.
  assert (T : 0 < INR t) by (apply lt_0_INR; unfold t; lia).
  assert (E : side_mean u m0 m1 t (fun _ => c) = c * (INR (m0 + m1) / INR t)).
  { unfold side_mean, head_sum, tail_sum. destruct (Nat.eqb_spec m1 0); [lia|]. rewrite !Nat.min_l by lia. rewrite !rsum_const, plus_INR. field. lra. }
  split; [exact E|]. rewrite E. rewrite <- (Rmult_1_r c) at 2. apply Rmult_lt_compat_l; [exact Hc|].
  apply Rmult_lt_reg_r with (INR t); [exact T|]. unfold Rdiv. rewrite Rmult_assoc, Rinv_l, Rmult_1_r, Rmult_1_l by lra. apply lt_INR. unfold t. lia.
Qed.

(** A positive order: when the margins of the rows follow polynomials of at most that degree (with more samples than the
    degree), the background is that polynomial at every pixel, stored in the type of the data. *)
Theorem C219_polynomial x m0 m1 d y (ps : nat -> list R) :
  (forall deg m xs ys, polyfit_contract deg m xs ys (fit deg m xs ys)) ->
  (0 < m0)%nat -> (0 < m1)%nat -> (S d < m0 + m1)%nat -> (forall v w u, shape_of x = [v; w; u] -> v <> 0%nat) ->
  (forall w, length (ps w) = S (S d)) ->
  (forall v w u, (u < m0 \/ cols x - m1 <= u < cols x)%nat -> at3 x v w u = peval (ps w) (INR u)) ->
  bg x (Seq [m0; m1]) (S d) = inr y -> forall v w u, at3 y v w u = store ints (peval (ps w) (INR u)).
Proof.
  intros Hfit H0 H1 Hd Hv Hl Hdata. unfold background_from_margin. destruct x as [n f|nw n f|nv nw n f]; [discriminate| |]; cbn [margin_list cols] in *;
    replace (total [m0; m1]) with (m0 + m1)%nat by (cbn; lia);
    (destruct (Nat.ltb_spec n (m0 + m1)) as [|L]; [discriminate|]);
    unfold order_used; (replace (existsb (Nat.eqb 0) [m0; m1]) with false by (destruct m0, m1; try lia; reflexivity));
    cbn [poly_background]; intros [= <-] v' w' u'; cbn [at3]; f_equal.
  - apply (C70_polynomial_recovered None n m0 m1 (S d) (fun _ => f) w').
    + unfold margin_check. destruct (Nat.ltb_spec n (m0 + m1)); [lia|reflexivity].
    + exact Hd.
    + apply Hfit.
    + apply Hl.
    + discriminate.
    + intros _ u Hu. exact (Hdata 0%nat w' u Hu).
  - apply (C70_polynomial_recovered (Some nv) n m0 m1 (S d) f w').
    + unfold margin_check. destruct (Nat.ltb_spec n (m0 + m1)); [lia|reflexivity].
    + exact Hd.
    + apply Hfit.
    + apply Hl.
    + intros [= E]. exact (Hv nv nw n eq_refl E).
    + intros v u Hu. exact (Hdata v w' u Hu).
Qed.
End Fit.

(** REFUTED: "the type of the data does not matter": a polynomial background of an integer image is cut to whole numbers.
    The straight line through the margins of the row [0, mid, 1] is 1/2 in the middle; the integer image gets 0 there, the
    floating-point one 1/2. *)
Theorem C219_integer_refuted fit mid : (forall deg m xs ys, polyfit_contract deg m xs ys (fit deg m xs ys)) ->
  forall k, let x := Flat 1 3 (fun _ u => if Nat.eqb u 1 then IZR mid else INR u / 2) in
  (forall y, background_from_margin true fit x (Scalar 1) 1 = inr y -> at3 y k 0 1 = 0)
  /\ (forall y, background_from_margin false fit x (Scalar 1) 1 = inr y -> at3 y k 0 1 = 1 / 2)
  /\ (exists y, background_from_margin true fit x (Scalar 1) 1 = inr y) /\ (exists y, background_from_margin false fit x (Scalar 1) 1 = inr y).
Proof.
  intros Hfit k x.
  assert (G : forall ints y, background_from_margin ints fit x (Scalar 1) 1 = inr y -> at3 y k 0 1 = store ints (1 / 2)).
  { intros ints y H. rewrite (proj1 (C219_forms ints fit x 1 1)) in H.
    pose proof (C219_polynomial ints fit x 1 1 0 y (fun _ => [0; 1 / 2]) Hfit) as P.
    rewrite P.
    - f_equal. cbn [peval INR]. lra.
    - lia.
    - lia.
    - lia.
    - intros v w u E. discriminate E.
    - reflexivity.
    - intros v w u Hu. unfold x in *. cbn [at3 cols] in *. destruct (Nat.eqb_spec u 1) as [->|N]; [exfalso; lia|]. cbn [peval]. lra.
    - exact H. }
  split; [|split; [|split]].
  - intros y H. rewrite (G _ _ H). unfold store, trunc0. destruct (Rle_dec 0 (1 / 2)); [|lra].
    change (IZR (Int_part (1 / 2)) = 0). apply (f_equal IZR). apply (rfloor_unique (1 / 2) 0). cbn. lra.
  - intros y H. exact (G _ _ H).
  - eexists. reflexivity.
  - eexists. reflexivity.
Qed.

(** Non-trivial cases. *)
Theorem C219_example fit : exists y, background_from_margin true fit (Stack 2 1 4 (fun v _ u => INR (v + u))) (Seq [1%nat; 2%nat]) 0 = inr y
  /\ shape_of y = [1; 1; 4]%nat /\ at3 y 0 0 3 = 13 / 6 /\ broadcast_shape [2; 1; 4]%nat (shape_of y) = Some [2; 1; 4]%nat.
Proof.
  eexists. split; [reflexivity|]. split; [reflexivity|]. split; [|reflexivity].
  cbn [at3]. unfold side_mean, head_sum, tail_sum. simpl. lra.
Qed.
