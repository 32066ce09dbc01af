(** C205: integer and boolean data, masks and starting volumes. *)
From Coq Require Import Reals Lra Lia List Bool.
Import ListNotations.
From Verif Require Import Sums PyErr DataTermsModel SolversModel DtypesModel.

Lemma promote_float_r k : promote k NFloat = NFloat. Proof. destruct k; reflexivity. Qed.
Lemma promote_float_l k : promote NFloat k = NFloat. Proof. destruct k; reflexivity. Qed.
Lemma rank_promote a b : rank (promote a b) = Nat.max (rank a) (rank b). Proof. destruct a, b; reflexivity. Qed.
Lemma inplace_float k : inplace NFloat k = true. Proof. destruct k; reflexivity. Qed.
Lemma inplace_needs_float k : inplace k NFloat = true <-> k = NFloat. Proof. destruct k; split; intros H; (reflexivity || discriminate). Qed.
Lemma mask_float m : mask_into NFloat m = inr NFloat. Proof. destruct m as [m|]; [|reflexivity]. unfold mask_into. now rewrite inplace_float. Qed.
Lemma residual_float kb m : residual_kind kb NFloat m = inr NFloat. Proof. destruct kb; unfold residual_kind; rewrite promote_float_r; apply mask_float. Qed.

(** ** Specification *)
(** the training mask is of a higher kind than the data: a mask the caller gave, or the complement of a test mask (the complement of a
    boolean array is a signed integer array) *)
Definition mask_too_fine (K : kinds) : Prop :=
  (exists m, k_bmask K = Some m /\ (rank (k_b K) < rank m)%nat) \/
  (exists t, k_btest K = Some t /\ (rank (k_b K) < rank (match t with NBool => NSigned | _ => t end))%nat).
(** the volume the iteration starts from is already within the tolerance *)
Definition within_tolerance (tol : option R) (start : info) : Prop := exists t r, tol = Some t /\ i_residual0 start = Some r /\ (r < t)%R.
(** outcome of a call: it raises TypeError exactly in the cases [fails], and otherwise gives what it gives for floating-point arrays *)
Definition as_floating {A} (out : py_err + nkind * A) (fails : Prop) (floating : A) : Prop :=
  (fails -> out = inl TypeError) /\ (~ fails -> exists k, out = inr (k, floating)).

Lemma fine_or_not K : (mask_into (k_b K) (fst (masks_kinds K)) = inl TypeError /\ mask_too_fine K) \/ (mask_into (k_b K) (fst (masks_kinds K)) = inr (k_b K) /\ ~ mask_too_fine K).
Proof.
  unfold masks_kinds, mask_too_fine. destruct (k_btest K) as [t|]; cbn [fst mask_into].
  - unfold inplace. rewrite rank_promote. destruct (Nat.leb_spec (Nat.max (rank (match k_bmask K with Some m => m | None => k_b K end)) (rank (one_minus t))) (rank (k_b K))) as [L|L].
    + right. split; [reflexivity|]. intros [(m & E & H)|(t' & E & H)].
      * rewrite E in L. lia.
      * injection E as <-. change (match t with NBool => NSigned | _ => t end) with (one_minus t) in H. lia.
    + left. split; [reflexivity|]. destruct (Nat.lt_ge_cases (rank (k_b K)) (rank (one_minus t))) as [G|G]; [right; exists t; split; [reflexivity|exact G]|].
      left. destruct (k_bmask K) as [m|]; [|exfalso; lia]. exists m. split; [reflexivity|lia].
  - destruct (k_bmask K) as [m|]; cbn [mask_into].
    + unfold inplace. destruct (Nat.leb_spec (rank m) (rank (k_b K))) as [L|L].
      * right. split; [reflexivity|]. intros [(m' & E & H)|(t' & E & _)]; [injection E as <-; lia|discriminate].
      * left. split; [reflexivity|]. left. exists m. split; [reflexivity|exact L].
    + right. split; [reflexivity|]. intros [(m' & E & _)|(t' & E & _)]; discriminate.
Qed.

(** ** Loops *)
Lemma loop_ok {Q S : Type} (I : Q -> Prop) (body_t : nat -> Q * S -> py_err + (Q * S) * bool) (body : nat -> S -> S * bool) :
  (forall ii q s, I q -> exists q', I q' /\ body_t ii (q, s) = inr ((q', fst (body ii s)), snd (body ii s))) ->
  forall n ii q s, I q -> exists q', I q' /\ for_range_e n ii body_t (q, s) = inr (q', for_range n ii body s).
Proof.
  intros H. induction n as [|n IH]; intros ii q s Hq; cbn [for_range_e for_range]; [exists q; split; [exact Hq|reflexivity]|].
  destruct (H ii q s Hq) as (q' & Hq' & ->). destruct (body ii s) as [s' [|]]; cbn [fst snd]; [exists q'; split; [exact Hq'|reflexivity]|]. apply IH, Hq'.
Qed.

Section Floating_operator.
  Context (P : problem) (K : kinds).
  Hypothesis Kop : k_op K = NFloat.
  Lemma initial_ok bm bt kx : initial_kinds P K bm bt kx = inr tt.
  Proof.
    unfold initial_kinds. rewrite Kop, promote_float_l. destruct (is_some bt || is_some (p_tol P))%bool; [|reflexivity].
    rewrite residual_float. cbn [bind]. destruct (is_some bt); [|reflexivity]. rewrite residual_float. reflexivity.
  Qed.
  Lemma test_ok bt kx : test_kinds K bt kx = inr tt.
  Proof. unfold test_kinds. rewrite Kop, promote_float_l. destruct (is_some bt); [|reflexivity]. rewrite residual_float. reflexivity. Qed.
  Lemma sirt_step_ok kbm kbt dt dtt bm bt sigma tau ii q st : q = NFloat -> exists q', q' = NFloat /\
    sirt_body_t P K kbm kbt dt dtt bm bt sigma tau ii (q, st) = inr ((q', fst (sirt_body P dt dtt bm bt sigma tau ii st)), snd (sirt_body P dt dtt bm bt sigma tau ii st)).
  Proof.
    intros ->. exists NFloat. split; [reflexivity|]. unfold sirt_body_t. rewrite Kop, promote_float_l, residual_float. cbn [bind]. rewrite test_ok. cbn [bind].
    destruct (sirt_body P dt dtt bm bt sigma tau ii st) as [st' [|]]; cbn [fst snd]; [reflexivity|]. rewrite inplace_float, mask_float. reflexivity.
  Qed.
  Lemma diagonal_ok bm : mask_into (k_b K) bm = inr (k_b K) -> diagonal_kinds K bm = inr NFloat.
  Proof. intros H. unfold diagonal_kinds. rewrite H. cbn [bind]. rewrite mask_float. reflexivity. Qed.
  Lemma diagonal_err bm : mask_into (k_b K) bm = inl TypeError -> diagonal_kinds K bm = inl TypeError.
  Proof. intros H. unfold diagonal_kinds. rewrite H. reflexivity. Qed.
End Floating_operator.

(** SIRT: fails when the mask is too fine, or when an integer starting volume has to be updated *)
Theorem C205_sirt : forall P K it, k_op K = NFloat ->
  as_floating (sirt_typed P K it)
    (mask_too_fine K \/ (exists k, k_x0 K = Some k /\ k <> NFloat /\ (1 <= it)%nat /\ ~ within_tolerance (p_tol P) (snd (sirt_call P 0))))
    (sirt_call P it).
Proof.
  intros P K it Kop. unfold as_floating, sirt_typed, sirt_call. destruct (masks_kinds K) as [kbm kbt] eqn:EM.
  pose proof (fine_or_not K) as HF. rewrite EM in HF. cbn [fst] in HF. destruct HF as [[HM HT]|[HM HT]].
  { rewrite diagonal_err by exact HM. split; [reflexivity|]. intros N. exfalso. apply N. left. exact HT. }
  rewrite diagonal_ok by exact HM. cbn [bind]. rewrite initial_ok by exact Kop. cbn [bind].
  destruct (initialize_b_masks (p_bmask P) (p_btest P)) as [bm bt] eqn:EB.
  set (tau := diag_tau _ _ _ _ _). set (sigma := diag_sigma _ _ _ _). set (x := pick_x0 _ _). set (dt := assigned P sigma). set (dtt := assigned_test P sigma).
  cbn [for_range snd].
  set (kx := match k_x0 K with Some k => k | None => NFloat end).
  assert (OK : forall f, kx = NFloat -> exists k, for_range_e it 0 (sirt_body_t P K kbm kbt dt dtt bm bt sigma tau) (kx, (x, f)) = inr (k, for_range it 0 (sirt_body P dt dtt bm bt sigma tau) (x, f))).
  { intros f E. destruct (loop_ok (fun q => q = NFloat) (sirt_body_t P K kbm kbt dt dtt bm bt sigma tau) (sirt_body P dt dtt bm bt sigma tau)
      (fun ii q s Hq => sirt_step_ok P K Kop kbm kbt dt dtt bm bt sigma tau ii q s Hq) it 0%nat kx (x, f) E) as (q' & _ & Hq). exists q'. exact Hq. }
  assert (D : kx = NFloat \/ exists k, k_x0 K = Some k /\ k <> NFloat /\ kx = k).
  { unfold kx. destruct (k_x0 K) as [k|]; [|left; reflexivity]. destruct k; try (right; eexists; split; [reflexivity|split; [discriminate|reflexivity]]). left. reflexivity. }
  destruct D as [E|(k & Ek & Nk & E)].
  - split; [|intros _; apply OK, E]. intros [Q|(k & Ek & Nk & _)]; [contradiction|]. exfalso. apply Nk. unfold kx in E. rewrite Ek in E. exact E.
  - destruct it as [|it].
    + cbn [for_range_e for_range]. split; [intros [Q|(k' & _ & _ & Q & _)]; [contradiction|lia]|]. intros _. eexists. reflexivity.
    + cbn [for_range_e for_range].
      assert (Ebody : forall f, sirt_body_t P K kbm kbt dt dtt bm bt sigma tau 0 (kx, (x, f)) =
        if snd (sirt_body P dt dtt bm bt sigma tau 0 (x, f)) then inr ((kx, fst (sirt_body P dt dtt bm bt sigma tau 0 (x, f))), true) else inl TypeError).
      { intros f. unfold sirt_body_t. rewrite Kop, promote_float_l, residual_float. cbn [bind]. rewrite test_ok by exact Kop. cbn [bind].
        destruct (sirt_body P dt dtt bm bt sigma tau 0 (x, f)) as [st' [|]]; cbn [fst snd]; [reflexivity|].
        destruct (inplace kx NFloat) eqn:I; [|reflexivity]. apply inplace_needs_float in I. exfalso. apply Nk. rewrite <- E. exact I. }
      rewrite Ebody. set (f0 := init_info (p_m P) dt dtt bm bt (p_tol P) (opA (p_op P) x) (new_info (S it) (p_tol P))).
      assert (EW : within_tolerance (p_tol P) (init_info (p_m P) dt dtt bm bt (p_tol P) (opA (p_op P) x) (new_info 0 (p_tol P))) <-> snd (sirt_body P dt dtt bm bt sigma tau 0 (x, f0)) = true).
      { unfold sirt_body, track. unfold within_tolerance, init_info. destruct (p_tol P) as [t|].
        - cbn [is_some]. rewrite !orb_true_r.
          destruct bt as [bt'|]; cbn [below_tol]; (destruct (Rlt_dec _ t) as [L|L]; cbn [snd]; split; intros HH; try reflexivity; try discriminate;
            [eexists; eexists; split; [reflexivity|split; [reflexivity|exact L]]|exfalso; destruct HH as (t' & r & E1 & E2 & E3); injection E1 as <-; injection E2 as <-; contradiction]).
        - cbn [is_some below_tol]. destruct (is_some bt || false)%bool; cbn [snd]; split; intros HH; try discriminate; destruct HH as (t & r & E1 & _); discriminate. }
      destruct (snd (sirt_body P dt dtt bm bt sigma tau 0 (x, f0))) eqn:ES.
      * split; [intros [Q|(k' & _ & _ & _ & Q)]; [contradiction|exfalso; apply Q; apply EW; reflexivity]|]. intros _. eexists.
        destruct (sirt_body P dt dtt bm bt sigma tau 0 (x, f0)) as [st' b']. cbn [fst snd] in *. subst b'. reflexivity.
      * split; [reflexivity|]. intros N. exfalso. apply N. right. exists k. split; [exact Ek|]. split; [exact Nk|]. split; [lia|]. intros W. apply EW in W. discriminate.
Qed.

(** MLEM (a floating-point operator): the same, and also when an integer starting volume is masked by something finer *)
Theorem C205_mlem : forall P K it, k_op K = NFloat ->
  as_floating (mlem_typed P K it)
    (mask_too_fine K \/ (exists k m, k_x0 K = Some k /\ k_xmask K = Some m /\ (rank k < rank m)%nat) \/
     (exists k, k_x0 K = Some k /\ k <> NFloat /\ (1 <= it)%nat /\ ~ within_tolerance (p_tol P) (snd (mlem_call P 0))))
    (mlem_call P it).
Proof.
  intros P K it Kop. unfold as_floating. destruct (masks_kinds K) as [kbm kbt] eqn:EM.
  pose proof (fine_or_not K) as HF. rewrite EM in HF. cbn [fst] in HF. destruct HF as [[HM HT]|[HM HT]].
  { unfold mlem_typed. rewrite EM, HM. cbn [bind]. split; [reflexivity|]. intros N. exfalso. apply N. left. exact HT. }
  set (kx := match k_x0 K with Some k => k | None => NFloat end).
  assert (D : kx = NFloat \/ exists k, k_x0 K = Some k /\ k <> NFloat /\ kx = k).
  { unfold kx. destruct (k_x0 K) as [k|]; [|left; reflexivity]. destruct k; try (right; eexists; split; [reflexivity|split; [discriminate|reflexivity]]). left. reflexivity. }
  destruct (initialize_b_masks (p_bmask P) (p_btest P)) as [bm bt] eqn:EB.
  set (tau := opAt (p_op P) (ones_masked bm)). set (x := mul_mask (p_xmask P) (pick_x0 (p_x0 P) vones)). set (dt := assigned P vones). set (dtt := assigned_test P vones).
  set (start := fun i => match p_tol P with Some _ => set_residual0 (match bt with Some _ => set_residual0_cv (new_info i (p_tol P)) (residual_norm (p_m P) dtt (compute_residual dtt (opA (p_op P) x) bt)) | None => new_info i (p_tol P) end)
      (residual_norm (p_m P) dt (compute_residual dt (opA (p_op P) x) bm))
      | None => match bt with Some _ => set_residual0_cv (new_info i (p_tol P)) (residual_norm (p_m P) dtt (compute_residual dtt (opA (p_op P) x) bt)) | None => new_info i (p_tol P) end end).
  assert (EC : forall i, mlem_call P i = for_range i 0 (mlem_body P dt dtt bm bt tau) (x, start i)) by (intros i; unfold mlem_call; rewrite EB; reflexivity).
  assert (ET : mlem_typed P K it = bind (mask_into kx (k_xmask K)) (fun k => for_range_e it 0 (mlem_body_t P K dt dtt bm bt tau) (k, (x, start it)))).
  { unfold mlem_typed. rewrite EM, HM. cbn [bind]. rewrite Kop, promote_float_l, mask_float. cbn [bind]. rewrite EB. reflexivity. }
  rewrite ET, !EC. cbn [for_range snd]. clear EC ET.
  assert (St : forall ii q st, q = NFloat -> exists q', q' = NFloat /\ mlem_body_t P K dt dtt bm bt tau ii (q, st) = inr ((q', fst (mlem_body P dt dtt bm bt tau ii st)), snd (mlem_body P dt dtt bm bt tau ii st))).
  { intros ii q st ->. exists NFloat. split; [reflexivity|]. unfold mlem_body_t. destruct (mlem_body P dt dtt bm bt tau ii st) as [st' [|]]; cbn [fst snd]; [reflexivity|]. rewrite inplace_float, mask_float. reflexivity. }
  destruct D as [E|(k & Ek & Nk & E)].
  - rewrite E, mask_float. cbn [bind]. split.
    + intros [Q|[(k & m & Ek & Em & Lk)|(k & Ek & Nk & _)]]; [contradiction| |]; exfalso; unfold kx in E; rewrite Ek in E; [subst k; destruct m; cbn in Lk; lia|contradiction].
    + intros _. destruct (loop_ok (fun q => q = NFloat) _ _ St it 0%nat NFloat (x, start it) eq_refl) as (q' & _ & Hq). exists q'. exact Hq.
  - assert (MX : (mask_into kx (k_xmask K) = inl TypeError /\ exists m, k_xmask K = Some m /\ (rank k < rank m)%nat) \/ (mask_into kx (k_xmask K) = inr kx /\ ~ exists m, k_xmask K = Some m /\ (rank k < rank m)%nat)).
    { unfold mask_into, inplace. rewrite E. destruct (k_xmask K) as [m|]; [|right; split; [reflexivity|intros (m & Q & _); discriminate]].
      destruct (Nat.leb_spec (rank m) (rank k)) as [L|L]; [right; split; [reflexivity|intros (m' & Q & Q'); injection Q as <-; lia]|left; split; [reflexivity|exists m; split; [reflexivity|exact L]]]. }
    destruct MX as [[-> (m & Em & Lm)]|[-> NX]]; cbn [bind].
    { split; [reflexivity|]. intros N. exfalso. apply N. right. left. exists k, m. auto. }
    destruct it as [|it].
    + cbn [for_range_e for_range]. split; [|intros _; eexists; reflexivity].
      intros [Q|[(k' & m & Ek' & Em & Lk)|(k' & _ & _ & Q & _)]]; [contradiction| |lia]. exfalso. apply NX. exists m. split; [exact Em|]. rewrite Ek in Ek'. injection Ek' as <-. exact Lk.
    + cbn [for_range_e for_range].
      assert (Ebody : mlem_body_t P K dt dtt bm bt tau 0 (kx, (x, start (S it))) =
        if snd (mlem_body P dt dtt bm bt tau 0 (x, start (S it))) then inr ((kx, fst (mlem_body P dt dtt bm bt tau 0 (x, start (S it)))), true) else inl TypeError).
      { unfold mlem_body_t. destruct (mlem_body P dt dtt bm bt tau 0 (x, start (S it))) as [st' [|]]; cbn [fst snd]; [reflexivity|].
        destruct (inplace kx NFloat) eqn:I; [|reflexivity]. apply inplace_needs_float in I. exfalso. apply Nk. rewrite <- E. exact I. }
      rewrite Ebody.
      assert (EW : within_tolerance (p_tol P) (start 0%nat) <-> snd (mlem_body P dt dtt bm bt tau 0 (x, start (S it))) = true).
      { unfold mlem_body, within_tolerance, start. destruct (p_tol P) as [t|].
        - cbn [below_tol]. destruct bt as [bt'|]; (destruct (Rlt_dec _ t) as [L|L]; cbn [snd]; split; intros HH; try reflexivity; try discriminate;
            [eexists; eexists; split; [reflexivity|split; [reflexivity|exact L]]|exfalso; destruct HH as (t' & r & E1 & E2 & E3); injection E1 as <-; injection E2 as <-; contradiction]).
        - destruct bt; cbn [snd]; split; intros HH; try discriminate; destruct HH as (t & r & E1 & _); discriminate. }
      destruct (snd (mlem_body P dt dtt bm bt tau 0 (x, start (S it)))) eqn:ES.
      * split.
        -- intros [Q|[(k' & m & Ek' & Em & Lk)|(k' & _ & _ & _ & Q)]]; [contradiction| |exfalso; apply Q; apply EW; reflexivity].
           exfalso. apply NX. exists m. split; [exact Em|]. rewrite Ek in Ek'. injection Ek' as <-. exact Lk.
        -- intros _. eexists. destruct (mlem_body P dt dtt bm bt tau 0 (x, start (S it))) as [st' b']. cbn [fst snd] in *. subst b'. reflexivity.
      * split; [reflexivity|]. intros N. exfalso. apply N. right. right. exists k. split; [exact Ek|]. split; [exact Nk|]. split; [lia|]. intros W. apply EW in W. discriminate.
Qed.

(** PDHG: every iteration with integer data fails; the starting volume may be of any kind *)
Theorem C205_pdhg : forall P K it, k_op K = NFloat ->
  as_floating (pdhg_typed P K None it) (mask_too_fine K \/ (k_b K <> NFloat /\ (1 <= it)%nat)) (pdhg_call P None it).
Proof.
  intros P K it Kop. unfold as_floating, pdhg_typed, pdhg_call. destruct (masks_kinds K) as [kbm kbt] eqn:EM.
  pose proof (fine_or_not K) as HF. rewrite EM in HF. cbn [fst] in HF. destruct HF as [[HM HT]|[HM HT]].
  { rewrite diagonal_err by exact HM. split; [reflexivity|]. intros N. exfalso. apply N. left. exact HT. }
  rewrite diagonal_ok by exact HM. cbn [bind]. rewrite initial_ok by exact Kop. cbn [bind].
  destruct (initialize_b_masks (p_bmask P) (p_btest P)) as [bm bt].
  set (tau := diag_tau _ _ _ _ _). set (sigma := diag_sigma _ _ _ _). set (x := pick_x0 _ _). set (dt := assigned P sigma). set (dtt := assigned_test P sigma).
  set (kx := match k_x0 K with Some k => k | None => NFloat end). set (s0 := mkPD _ _ _ _). set (f0 := init_info _ _ _ _ _ _ _ _).
  assert (St : forall ii (q : nkind * nkind) st, snd q = NFloat -> exists q', snd q' = NFloat /\
    pdhg_body_t P K kbm kbt dt dtt bm bt tau ii (q, st) = inr ((q', fst (pdhg_body P dt dtt bm bt tau ii st)), snd (pdhg_body P dt dtt bm bt tau ii st))).
  { intros ii [q1 q2] st Hq. cbn [snd] in Hq. subst q2. exists (NFloat, NFloat). split; [reflexivity|]. unfold pdhg_body_t. rewrite inplace_float, mask_float. cbn [bind]. rewrite mask_float. cbn [bind].
    destruct (pdhg_body P dt dtt bm bt tau ii st) as [st' b']. rewrite initial_ok by exact Kop. reflexivity. }
  assert (D : k_b K = NFloat \/ k_b K <> NFloat) by (destruct (k_b K); (left; reflexivity) || (right; discriminate)).
  destruct D as [E|E].
  - split; [intros [Q|[Q _]]; contradiction|]. intros _. rewrite E.
    destruct (loop_ok (fun q : nkind * nkind => snd q = NFloat) _ _ St it 0%nat (kx, NFloat) (s0, f0) eq_refl) as (q' & _ & ->). cbn [bind].
    destruct (for_range it 0 (pdhg_body P dt dtt bm bt tau) (s0, f0)) as [s1 f1]. exists (fst q'). reflexivity.
  - destruct it as [|it].
    + split; [intros [Q|[_ Q]]; [contradiction|lia]|]. intros _. eexists. reflexivity.
    + split; [|intros N; exfalso; apply N; right; split; [exact E|lia]]. intros _. cbn [for_range_e]. unfold pdhg_body_t at 1.
      destruct (inplace (k_b K) NFloat) eqn:I; [apply inplace_needs_float in I; contradiction|]. reflexivity.
Qed.
(** FISTA with preconditioning takes integer data and any starting volume: only the mask matters *)
Theorem C205_fista : forall P K restart it, k_op K = NFloat ->
  as_floating (fista_typed P K None restart it) (mask_too_fine K) (fista_call P None restart it).
Proof.
  intros P K restart it Kop. unfold as_floating, fista_typed, fista_call. destruct (masks_kinds K) as [kbm kbt] eqn:EM.
  pose proof (fine_or_not K) as HF. rewrite EM in HF. cbn [fst] in HF. destruct HF as [[HM HT]|[HM HT]].
  { rewrite diagonal_err by exact HM. split; [reflexivity|]. intros N. contradiction. }
  rewrite diagonal_ok by exact HM. cbn [bind]. rewrite mask_float. cbn [bind]. rewrite initial_ok by exact Kop. cbn [bind].
  destruct (initialize_b_masks (p_bmask P) (p_btest P)) as [bm bt].
  set (tau := diag_tau _ _ _ _ _). set (sigma := diag_sigma _ _ _ _). set (x := mul_mask _ _). set (dt := assigned P vones). set (dtt := assigned_test P vones). set (f0 := init_info _ _ _ _ _ _ _ _).
  split; [contradiction|]. intros _.
  assert (St : forall ii q st, q = NFloat -> exists q', q' = NFloat /\
    fista_body_t P K kbm kbt dt dtt bm bt sigma tau restart ii (q, st) = inr ((q', fst (fista_body P dt dtt bm bt sigma tau restart ii st)), snd (fista_body P dt dtt bm bt sigma tau restart ii st))).
  { intros ii q st ->. exists NFloat. split; [reflexivity|]. unfold fista_body_t. rewrite promote_float_r, residual_float. cbn [bind]. rewrite mask_float. cbn [bind].
    destruct (fista_body P dt dtt bm bt sigma tau restart ii st) as [st' b']. rewrite initial_ok by exact Kop. reflexivity. }
  destruct (loop_ok (fun q => q = NFloat) _ _ St it 0%nat NFloat (mkFI x x 1, f0) eq_refl) as (q' & _ & ->). cbn [bind].
  destruct (for_range it 0 (fista_body P dt dtt bm bt sigma tau restart) (mkFI x x 1, f0)) as [s1 f1]. exists q'. reflexivity.
Qed.
(** without preconditioning (also: operators without absolute()), PDHG and FISTA refuse integer data, even for no iterations *)
Theorem C205_lipschitz : forall P K L restart it, k_op K = NFloat ->
  as_floating (pdhg_typed P K (Some L) it) (k_b K <> NFloat) (pdhg_call P (Some L) it) /\
  as_floating (fista_typed P K (Some L) restart it) (k_b K <> NFloat) (fista_call P (Some L) restart it).
Proof.
  intros P K L restart it Kop.
  assert (D : (k_b K = NFloat /\ power_kinds K = inr NFloat) \/ (k_b K <> NFloat /\ power_kinds K = inl TypeError)).
  { unfold power_kinds. rewrite Kop, promote_float_l. destruct (k_b K); (left; split; reflexivity) || (right; split; [discriminate|reflexivity]). }
  unfold as_floating. split.
  - unfold pdhg_typed, pdhg_call. destruct (masks_kinds K) as [kbm kbt]. destruct D as [[E ->]|[E ->]]; cbn [bind].
    2:{ split; [reflexivity|]. intros N. contradiction. }
    split; [contradiction|]. intros _. rewrite initial_ok by exact Kop. cbn [bind]. destruct (initialize_b_masks (p_bmask P) (p_btest P)) as [bm bt].
    set (tau := lips_tau _ _ _). set (sigma := lips_sigma _ _). set (x := pick_x0 _ _). set (dt := assigned P sigma). set (dtt := assigned_test P sigma).
    set (kx := match k_x0 K with Some k => k | None => NFloat end). set (s0 := mkPD _ _ _ _). set (f0 := init_info _ _ _ _ _ _ _ _).
    assert (St : forall ii (q : nkind * nkind) st, snd q = NFloat -> exists q', snd q' = NFloat /\
      pdhg_body_t P K kbm kbt dt dtt bm bt tau ii (q, st) = inr ((q', fst (pdhg_body P dt dtt bm bt tau ii st)), snd (pdhg_body P dt dtt bm bt tau ii st))).
    { intros ii [q1 q2] st Hq. cbn [snd] in Hq. subst q2. exists (NFloat, NFloat). split; [reflexivity|]. unfold pdhg_body_t. rewrite inplace_float, mask_float. cbn [bind]. rewrite mask_float. cbn [bind].
      destruct (pdhg_body P dt dtt bm bt tau ii st) as [st' b']. rewrite initial_ok by exact Kop. reflexivity. }
    rewrite E. destruct (loop_ok (fun q : nkind * nkind => snd q = NFloat) _ _ St it 0%nat (kx, NFloat) (s0, f0) eq_refl) as (q' & _ & ->). cbn [bind].
    destruct (for_range it 0 (pdhg_body P dt dtt bm bt tau) (s0, f0)) as [s1 f1]. exists (fst q'). reflexivity.
  - unfold fista_typed, fista_call. destruct (masks_kinds K) as [kbm kbt]. destruct D as [[E ->]|[E ->]]; cbn [bind].
    2:{ split; [reflexivity|]. intros N. contradiction. }
    split; [contradiction|]. intros _. rewrite mask_float. cbn [bind]. rewrite initial_ok by exact Kop. cbn [bind].
    destruct (initialize_b_masks (p_bmask P) (p_btest P)) as [bm bt].
    set (tau := lips_tau _ _ _). set (sigma := lips_sigma _ _). set (x := mul_mask _ _). set (dt := assigned P vones). set (dtt := assigned_test P vones). set (f0 := init_info _ _ _ _ _ _ _ _).
    assert (St : forall ii q st, q = NFloat -> exists q', q' = NFloat /\
      fista_body_t P K kbm kbt dt dtt bm bt sigma tau restart ii (q, st) = inr ((q', fst (fista_body P dt dtt bm bt sigma tau restart ii st)), snd (fista_body P dt dtt bm bt sigma tau restart ii st))).
    { intros ii q st ->. exists NFloat. split; [reflexivity|]. unfold fista_body_t. rewrite promote_float_r, residual_float. cbn [bind]. rewrite mask_float. cbn [bind].
      destruct (fista_body P dt dtt bm bt sigma tau restart ii st) as [st' b']. rewrite initial_ok by exact Kop. reflexivity. }
    destruct (loop_ok (fun q => q = NFloat) _ _ St it 0%nat NFloat (mkFI x x 1, f0) eq_refl) as (q' & _ & ->). cbn [bind].
    destruct (for_range it 0 (fista_body P dt dtt bm bt sigma tau restart) (mkFI x x 1, f0)) as [s1 f1]. exists q'. reflexivity.
Qed.
(** floating-point arguments never fail *)
Theorem C205_floating : forall P K it restart, k_op K = NFloat -> k_b K = NFloat -> (forall k, k_x0 K = Some k -> k = NFloat) ->
  (exists k, sirt_typed P K it = inr (k, sirt_call P it)) /\ (exists k, mlem_typed P K it = inr (k, mlem_call P it)) /\
  (exists k, pdhg_typed P K None it = inr (k, pdhg_call P None it)) /\ (exists k, fista_typed P K None restart it = inr (k, fista_call P None restart it)).
Proof.
  intros P K it restart Ko Kb Kx.
  assert (NM : ~ mask_too_fine K). { intros [(m & _ & H)|(t & _ & H)]; rewrite Kb in H; [destruct m|destruct t]; cbn in H; lia. }
  split; [|split; [|split]].
  - apply (C205_sirt P K it Ko). intros [Q|(k & E & Nk & _)]; [contradiction|]. apply Nk, Kx, E.
  - apply (C205_mlem P K it Ko). intros [Q|[(k & m & E & _ & L)|(k & E & Nk & _)]]; [contradiction| |apply Nk, Kx, E]. rewrite (Kx k E) in L. destruct m; cbn in L; lia.
  - apply (C205_pdhg P K it Ko). intros [Q|[Q _]]; contradiction.
  - apply (C205_fista P K restart it Ko). exact NM.
Qed.
(** a sinogram of unsigned integers (detector counts): SIRT, MLEM and preconditioned FISTA give the floating-point result, PDHG raises
    TypeError for every such sinogram and every positive number of iterations, and so does every solver in a cross-validation, whatever
    the kind of the test mask *)
Definition counts (btest : option nkind) : kinds := mkKinds NFloat NUnsigned None None None btest.
Theorem C205_counts_refuted : forall P it restart, (1 <= it)%nat ->
  (exists k, sirt_typed P (counts None) it = inr (k, sirt_call P it)) /\ (exists k, mlem_typed P (counts None) it = inr (k, mlem_call P it)) /\
  (exists k, fista_typed P (counts None) None restart it = inr (k, fista_call P None restart it)) /\
  pdhg_typed P (counts None) None it = inl TypeError /\
  forall t, t <> NUnsigned -> sirt_typed P (counts (Some t)) it = inl TypeError /\ mlem_typed P (counts (Some t)) it = inl TypeError /\
    fista_typed P (counts (Some t)) None restart it = inl TypeError /\ pdhg_typed P (counts (Some t)) None it = inl TypeError.
Proof.
  intros P it restart Hit.
  assert (NM : ~ mask_too_fine (counts None)) by (intros [(m & E & _)|(t & E & _)]; discriminate).
  split; [|split; [|split; [|split]]].
  - apply C205_sirt; [reflexivity|]. intros [Q|(k & E & _)]; [contradiction|discriminate].
  - apply C205_mlem; [reflexivity|]. intros [Q|[(k & m & E & _)|(k & E & _)]]; [contradiction|discriminate|discriminate].
  - apply C205_fista; [reflexivity|exact NM].
  - apply C205_pdhg; [reflexivity|]. right. split; [discriminate|exact Hit].
  - intros t Ht.
    assert (M : mask_too_fine (counts (Some t))). { right. exists t. split; [reflexivity|]. destruct t; try (cbn; lia). contradiction. }
    split; [|split; [|split]].
    + apply C205_sirt; [reflexivity|left; exact M].
    + apply C205_mlem; [reflexivity|left; exact M].
    + apply C205_fista; [reflexivity|exact M].
    + apply C205_pdhg; [reflexivity|left; exact M].
Qed.
(** MLEM with an integer operator (for example a 0/1 matrix) and integer data raises TypeError; with floating data it works *)
Theorem C205_mlem_integer_operator_refuted : forall P it kb, (1 <= it)%nat -> p_tol P = None -> kb = NUnsigned \/ kb = NSigned ->
  mlem_typed P (mkKinds NSigned kb None None None None) it = inl TypeError /\
  exists k, mlem_typed P (mkKinds NSigned NFloat None None None None) it = inr (k, mlem_call P it).
Proof.
  intros P it kb Hit Ht Hk. destruct it as [|it]; [lia|]. split.
  - unfold mlem_typed, masks_kinds. cbn [k_btest k_bmask k_b k_op k_xmask k_x0 mask_into bind].
    destruct (initialize_b_masks (p_bmask P) (p_btest P)) as [bm bt]. cbn [for_range_e]. unfold mlem_body_t at 1. unfold mlem_body. rewrite Ht.
    destruct Hk as [-> | ->]; destruct bt; reflexivity.
  - unfold mlem_typed, mlem_call, masks_kinds. cbn [k_btest k_bmask k_b k_op k_xmask k_x0 mask_into bind]. change (promote NSigned NFloat) with NFloat.
    destruct (initialize_b_masks (p_bmask P) (p_btest P)) as [bm bt].
    assert (St : forall dt dtt tau ii q st, q = NFloat -> exists q', q' = NFloat /\ mlem_body_t P (mkKinds NSigned NFloat None None None None) dt dtt bm bt tau ii (q, st) =
      inr ((q', fst (mlem_body P dt dtt bm bt tau ii st)), snd (mlem_body P dt dtt bm bt tau ii st))).
    { intros dt dtt tau ii q st ->. exists NFloat. split; [reflexivity|]. unfold mlem_body_t. destruct (mlem_body P dt dtt bm bt tau ii st) as [st' [|]]; reflexivity. }
    match goal with |- exists k, for_range_e _ _ (mlem_body_t _ _ ?dt ?dtt _ _ ?tau) (_, ?s) = _ =>
      destruct (loop_ok (fun q => q = NFloat) _ _ (St dt dtt tau) (S it) 0%nat NFloat s eq_refl) as (q' & _ & Hq) end.
    exists q'. exact Hq.
Qed.

(** SART *)
Theorem C205_sart : forall K tol sweeps, k_op K = NFloat -> k_btest K = None ->
  let fails := mask_too_fine K \/ (tol = true /\ k_b K = NBool) \/ (sweeps = true /\ exists k, k_x0 K = Some k /\ k <> NFloat) in
  (fails -> sart_kinds K tol sweeps = inl TypeError) /\ (~ fails -> exists k, sart_kinds K tol sweeps = inr k).
Proof.
  intros K tol sweeps Kop Kt fails. unfold fails. clear fails. unfold sart_kinds. pose proof (fine_or_not K) as HF. unfold masks_kinds in HF. rewrite Kt in HF. cbn [fst] in HF.
  destruct HF as [[HM HT]|[HM HT]]; rewrite HM; cbn [bind].
  { split; [reflexivity|]. intros N. exfalso. apply N. left. exact HT. }
  rewrite mask_float. cbn [bind].
  assert (RK : k_b K <> NBool -> residual_kind (k_b K) (k_b K) (k_bmask K) = inr (k_b K)).
  { intros N. rewrite <- HM. destruct (k_b K); try contradiction; reflexivity. }
  assert (RB : k_b K = NBool -> residual_kind (k_b K) (k_b K) (k_bmask K) = inl TypeError) by (intros ->; reflexivity).
  assert (D : k_b K = NBool \/ k_b K <> NBool) by (destruct (k_b K); (left; reflexivity) || (right; discriminate)).
  assert (DX : (exists k, k_x0 K = Some k /\ k <> NFloat) \/ (match k_x0 K with Some k => k | None => NFloat end) = NFloat).
  { destruct (k_x0 K) as [k|]; [|right; reflexivity]. destruct k; try (left; eexists; split; [reflexivity|discriminate]). right. reflexivity. }
  assert (Tail : forall z : nkind, (sweeps = true -> (exists k, k_x0 K = Some k /\ k <> NFloat) -> (if sweeps then bind (residual_kind (k_b K) (promote (k_op K) (match k_x0 K with Some k => k | None => NFloat end)) (k_bmask K))
      (fun _ => if inplace (match k_x0 K with Some k => k | None => NFloat end) NFloat then mask_into (match k_x0 K with Some k => k | None => NFloat end) (k_xmask K) else inl TypeError) else inr (match k_x0 K with Some k => k | None => NFloat end)) = inl TypeError) /\
     (~ (sweeps = true /\ exists k, k_x0 K = Some k /\ k <> NFloat) -> exists k, (if sweeps then bind (residual_kind (k_b K) (promote (k_op K) (match k_x0 K with Some k => k | None => NFloat end)) (k_bmask K))
      (fun _ => if inplace (match k_x0 K with Some k => k | None => NFloat end) NFloat then mask_into (match k_x0 K with Some k => k | None => NFloat end) (k_xmask K) else inl TypeError) else inr (match k_x0 K with Some k => k | None => NFloat end)) = inr k)).
  { intros _. rewrite Kop, promote_float_l, residual_float. cbn [bind]. split.
    - intros -> (k & -> & Nk). destruct k; try contradiction; reflexivity.
    - intros N. destruct sweeps; [|eexists; reflexivity]. destruct DX as [Q|Q]; [exfalso; apply N; split; [reflexivity|exact Q]|]. rewrite Q, mask_float. exists NFloat. reflexivity. }
  destruct (Tail NFloat) as [T1 T2]. destruct tol.
  - destruct D as [D|D].
    + rewrite (RB D). cbn [bind]. split; [reflexivity|]. intros N. exfalso. apply N. right. left. split; [reflexivity|exact D].
    + rewrite (RK D). cbn [bind]. split; [intros [Q|[[_ Q]|[Q1 Q2]]]; [contradiction|contradiction|apply T1; assumption]|]. intros N. apply T2. intros Q. apply N. right. right. exact Q.
  - cbn [bind]. split; [intros [Q|[[Q _]|[Q1 Q2]]]; [contradiction|discriminate|apply T1; assumption]|]. intros N. apply T2. intros Q. apply N. right. right. exact Q.
Qed.
Open Scope R_scope.
(** with integer data the residuals SART reports and compares with its tolerance are those of the truncated projections: less than one
    count off per pixel - but zero for every projection within one count above its datum *)
Lemma truncate_near x : Rabs (truncate x - x) < 1.
Proof.
  unfold truncate. destruct (Rlt_dec x 0) as [L|L].
  - destruct (base_Int_part (- x)) as [A B]. unfold Rabs. destruct (Rcase_abs _); lra.
  - destruct (base_Int_part x) as [A B]. unfold Rabs. destruct (Rcase_abs _); lra.
Qed.
Theorem C205_sart_residual : forall p y, sart_pixel NFloat p y = p - y /\ Rabs (sart_pixel NSigned p y - (p - y)) < 1 /\
  Rabs (sart_pixel NUnsigned p y - (p - y)) < 1.
Proof.
  intros p y. pose proof (truncate_near p) as T. cbn [sart_pixel]. split; [reflexivity|]. replace (truncate p - y - (p - y)) with (truncate p - p) by ring. split; exact T.
Qed.
Theorem C205_sart_residual_refuted : forall (y : nat) p, INR y <= p < INR y + 1 -> sart_pixel NUnsigned p (INR y) = 0 /\ sart_pixel NSigned p (INR y) = 0.
Proof.
  intros y p [H1 H2]. assert (E : truncate p = INR y).
  { unfold truncate. destruct (Rlt_dec p 0) as [L|L]; [exfalso; pose proof (pos_INR y); lra|]. destruct (base_Int_part p) as [A B].
    rewrite INR_IZR_INZ in *. f_equal. assert (IZR (Int_part p) < IZR (Z.of_nat y + 1)) by (rewrite plus_IZR; lra). assert (IZR (Z.of_nat y) < IZR (Int_part p + 1)) by (rewrite plus_IZR; lra).
    apply lt_IZR in H, H0. lia. }
  cbn [sart_pixel]. rewrite E. split; ring.
Qed.
