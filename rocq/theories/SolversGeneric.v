(** Generic facts on the loop combinator, constraints, masks and bookkeeping. *)
From Verif Require Import Sums DataTermsModel DataTermsProofs SolversModel SolversSpec.

(** * Loop rules *)
Lemma for_range_inv {S} (I : nat -> S -> Prop) (Q : S -> Prop) body fuel ii s :
  I ii s ->
  (forall k s, I k s -> (k < ii + fuel)%nat -> let '(s', brk) := body k s in if (brk : bool) then Q s' else I (Datatypes.S k) s') ->
  (forall s, I (ii + fuel)%nat s -> Q s) ->
  Q (for_range fuel ii body s).
Proof.
  revert ii s. induction fuel as [|k IH]; intros ii s H0 Hstep Hend; simpl.
  - apply Hend. rewrite Nat.add_0_r. exact H0.
  - pose proof (Hstep ii s H0 ltac:(lia)) as Hs. destruct (body ii s) as [s' brk]. destruct brk; [exact Hs|].
    apply IH; [exact Hs| |].
    + intros j t Hj Hlt. apply Hstep; [exact Hj|lia].
    + intros t Ht. apply Hend. replace (ii + Datatypes.S k)%nat with (Datatypes.S ii + k)%nat by lia. exact Ht.
Qed.

Lemma for_range_rel {S T} (Rel : S -> T -> Prop) body body' fuel ii s t :
  Rel s t ->
  (forall k s t, Rel s t -> Rel (fst (body k s)) (fst (body' k t)) /\ snd (body k s) = snd (body' k t)) ->
  Rel (for_range fuel ii body s) (for_range fuel ii body' t).
Proof.
  revert ii s t. induction fuel as [|k IH]; intros ii s t H Hstep; simpl; [exact H|].
  destruct (Hstep ii s t H) as [H1 H2]. destruct (body ii s) as [s' b]. destruct (body' ii t) as [t' b'].
  simpl in *. subst b'. destruct b; [exact H1|]. apply IH; auto.
Qed.

(** * Constraints *)
Lemma constrain_feasible lo up x_mask n x :
  (forall l u j, lo = Some l -> up = Some u -> (j < n)%nat -> l j <= u j) ->
  feasible lo up x_mask n (constrain lo up x_mask x).
Proof.
  intros Hlu j Hj. unfold constrain. split.
  - destruct x_mask as [m|]; [|exact I]. intros E. simpl. rewrite E. ring.
  - intros Hm.
    assert (E : mul_mask x_mask (np_clip lo up x) j = np_clip lo up x j)
      by (destruct x_mask; simpl; [rewrite Hm; ring|reflexivity]).
    rewrite E. clear E. unfold np_clip.
    destruct lo as [l|], up as [u|].
    + specialize (Hlu l u j eq_refl eq_refl Hj). split; [|apply Rmin_r].
      apply Rmin_glb; [apply Rmax_r|exact Hlu].
    + split; [apply Rmax_r|exact I].
    + split; [exact I|apply Rmin_r].
    + split; exact I.
Qed.

(** * Equal vectors: functional extensionality packaged *)
Lemma vec_ext (x y : vec) : (forall i, x i = y i) -> x = y.
Proof. intros H. apply functional_extensionality. exact H. Qed.

(** * Bookkeeping: a common shape of the four iterative solvers *)
Definition record (trk cv : bool) (ii : nat) (r rc : R) (f : info) : info :=
  let f := if trk then set_residual f ii r else f in
  if cv then set_residual_cv f ii rc else f.

Fixpoint iterate {S} (upd : nat -> S -> S) (k : nat) (s : S) : S :=
  match k with O => s | Datatypes.S k => upd k (iterate upd k s) end.

(** What the info object must contain when K iterations have been started. *)
Definition booked (trk cv : bool) (r rc : nat -> R) (K : nat) (f f0 : info) : Prop :=
  i_iterations f = K /\ i_residual0 f = i_residual0 f0 /\ i_residual0_cv f = i_residual0_cv f0 /\
  i_max_iterations f = i_max_iterations f0 /\ i_tolerance f = i_tolerance f0 /\
  (forall k, i_residuals f k = if (trk && (k <? K)%nat)%bool then r k else 0) /\
  (forall k, i_residuals_cv f k = if (cv && (k <? K)%nat)%bool then rc k else 0).

Lemma booked_step trk cv r rc K f f0 :
  booked trk cv r rc K f f0 ->
  booked trk cv r rc (S K) (record trk cv K (r K) (rc K) (incr_iterations f)) f0.
Proof.
  intros (H1 & H2 & H3 & H4 & H5 & H6 & H7). unfold booked, record.
  assert (Hc : forall k, ((k <? S K)%nat = if Nat.eqb k K then true else (k <? K)%nat)).
  { intros k. destruct (Nat.eqb_spec k K); [subst; apply Nat.ltb_lt; lia|].
    destruct (Nat.ltb_spec k K), (Nat.ltb_spec k (S K)); try reflexivity; lia. }
  repeat split.
  - destruct trk, cv; simpl; rewrite H1; reflexivity.
  - destruct trk, cv; simpl; exact H2.
  - destruct trk, cv; simpl; exact H3.
  - destruct trk, cv; simpl; exact H4.
  - destruct trk, cv; simpl; exact H5.
  - intros k. rewrite Hc. destruct trk, cv; simpl; unfold upd_at; destruct (Nat.eqb_spec k K); subst; auto; rewrite H6; reflexivity.
  - intros k. rewrite Hc. destruct trk, cv; simpl; unfold upd_at; destruct (Nat.eqb_spec k K); subst; auto; rewrite H7; reflexivity.
Qed.

Section Loop.
  Context {S : Type} (upd : nat -> S -> S) (r rc : S -> R) (trk cv : bool) (stop : R -> bool).

  (** test before the update (SIRT, MLEM) *)
  Definition pre_body (ii : nat) (sf : S * info) : (S * info) * bool :=
    let '(s, f) := sf in
    let f := record trk cv ii (r s) (rc s) (incr_iterations f) in
    if (trk && stop (r s))%bool then ((s, f), true) else ((upd ii s, f), false).

  (** test after the update (PDHG, FISTA) *)
  Definition post_body (ii : nat) (sf : S * info) : (S * info) * bool :=
    let '(s, f) := sf in
    let s := upd ii s in
    let f := record trk cv ii (r s) (rc s) (incr_iterations f) in
    ((s, f), (trk && stop (r s))%bool).

  Lemma pre_loop s0 f0 iterations :
    booked trk cv (fun k => r (iterate upd k s0)) (fun k => rc (iterate upd k s0)) 0 f0 f0 ->
    let '(s, f) := for_range iterations 0 pre_body (s0, f0) in
    exists K, (K <= iterations)%nat /\
      booked trk cv (fun k => r (iterate upd k s0)) (fun k => rc (iterate upd k s0)) K f f0 /\
      (forall k, (Datatypes.S k < K)%nat -> (trk && stop (r (iterate upd k s0)))%bool = false) /\
      (((1 <= K)%nat /\ (trk && stop (r (iterate upd (K - 1) s0)))%bool = true /\ s = iterate upd (K - 1) s0) \/
       (K = iterations /\ (forall k, (k < K)%nat -> (trk && stop (r (iterate upd k s0)))%bool = false) /\ s = iterate upd K s0)).
  Proof.
    intros Hb.
    pose (I := fun k (sf : S * info) => fst sf = iterate upd k s0 /\
       booked trk cv (fun k => r (iterate upd k s0)) (fun k => rc (iterate upd k s0)) k (snd sf) f0 /\
       (forall j, (j < k)%nat -> (trk && stop (r (iterate upd j s0)))%bool = false)).
    pose (Q := fun sf : S * info => let '(s, f) := sf in exists K, (K <= iterations)%nat /\
      booked trk cv (fun k => r (iterate upd k s0)) (fun k => rc (iterate upd k s0)) K f f0 /\
      (forall k, (Datatypes.S k < K)%nat -> (trk && stop (r (iterate upd k s0)))%bool = false) /\
      (((1 <= K)%nat /\ (trk && stop (r (iterate upd (K - 1) s0)))%bool = true /\ s = iterate upd (K - 1) s0) \/
       (K = iterations /\ (forall k, (k < K)%nat -> (trk && stop (r (iterate upd k s0)))%bool = false) /\ s = iterate upd K s0))).
    change (Q (for_range iterations 0 pre_body (s0, f0))).
    apply (for_range_inv I Q).
    - split; [reflexivity|]. split; [exact Hb|]. intros j Hj; lia.
    - intros k [s f] (Hs & Hk & Hn) Hlt. simpl in Hs, Hk. subst s.
      unfold pre_body. pose proof (booked_step _ _ _ _ _ _ _ Hk) as Hk'. cbv beta in Hk'.
      destruct (trk && stop (r (iterate upd k s0)))%bool eqn:E.
      + exists (Datatypes.S k). split; [lia|]. split; [exact Hk'|]. split.
        * intros j Hj. apply Hn. lia.
        * left. replace (Datatypes.S k - 1)%nat with k by lia. split; [lia|]. split; [exact E|reflexivity].
      + split; [reflexivity|]. split; [exact Hk'|]. intros j Hj.
        destruct (Nat.eq_dec j k) as [->|]; [exact E|apply Hn; lia].
    - intros [s f] (Hs & Hk & Hn). simpl in *. exists iterations. split; [lia|]. split; [exact Hk|].
      split; [intros; apply Hn; lia|]. right. split; [reflexivity|]. split; [exact Hn|exact Hs].
  Qed.

  Lemma post_loop s0 f0 iterations :
    booked trk cv (fun k => r (iterate upd (Datatypes.S k) s0)) (fun k => rc (iterate upd (Datatypes.S k) s0)) 0 f0 f0 ->
    let '(s, f) := for_range iterations 0 post_body (s0, f0) in
    exists K, (K <= iterations)%nat /\
      booked trk cv (fun k => r (iterate upd (Datatypes.S k) s0)) (fun k => rc (iterate upd (Datatypes.S k) s0)) K f f0 /\
      s = iterate upd K s0 /\
      (forall k, (1 <= k < K)%nat -> (trk && stop (r (iterate upd k s0)))%bool = false) /\
      (((1 <= K)%nat /\ (trk && stop (r (iterate upd K s0)))%bool = true) \/
       (K = iterations /\ ((1 <= K)%nat -> (trk && stop (r (iterate upd K s0)))%bool = false))).
  Proof.
    intros Hb.
    pose (I := fun k (sf : S * info) => fst sf = iterate upd k s0 /\
       booked trk cv (fun k => r (iterate upd (Datatypes.S k) s0)) (fun k => rc (iterate upd (Datatypes.S k) s0)) k (snd sf) f0 /\
       (forall j, (1 <= j <= k)%nat -> (trk && stop (r (iterate upd j s0)))%bool = false)).
    pose (Q := fun sf : S * info => let '(s, f) := sf in exists K, (K <= iterations)%nat /\
      booked trk cv (fun k => r (iterate upd (Datatypes.S k) s0)) (fun k => rc (iterate upd (Datatypes.S k) s0)) K f f0 /\
      s = iterate upd K s0 /\
      (forall k, (1 <= k < K)%nat -> (trk && stop (r (iterate upd k s0)))%bool = false) /\
      (((1 <= K)%nat /\ (trk && stop (r (iterate upd K s0)))%bool = true) \/
       (K = iterations /\ ((1 <= K)%nat -> (trk && stop (r (iterate upd K s0)))%bool = false)))).
    change (Q (for_range iterations 0 post_body (s0, f0))).
    apply (for_range_inv I Q).
    - split; [reflexivity|]. split; [exact Hb|]. intros j Hj; lia.
    - intros k [s f] (Hs & Hk & Hn) Hlt. simpl in Hs, Hk. subst s.
      unfold post_body. pose proof (booked_step _ _ _ _ _ _ _ Hk) as Hk'. cbv beta in Hk'.
      change (upd k (iterate upd k s0)) with (iterate upd (Datatypes.S k) s0).
      destruct (trk && stop (r (iterate upd (Datatypes.S k) s0)))%bool eqn:E.
      + exists (Datatypes.S k). split; [lia|]. split; [exact Hk'|]. split; [reflexivity|]. split.
        * intros j Hj. apply Hn. lia.
        * left. split; [lia|]. exact E.
      + split; [reflexivity|]. split; [exact Hk'|]. intros j Hj.
        destruct (Nat.eq_dec j (Datatypes.S k)) as [->|]; [exact E|apply Hn; lia].
    - intros [s f] (Hs & Hk & Hn). simpl in *. exists iterations. split; [lia|]. split; [exact Hk|].
      split; [exact Hs|]. split; [intros; apply Hn; lia|]. right. split; [reflexivity|]. intros; apply Hn; lia.
  Qed.
End Loop.

Lemma for_range_ext {S} fuel ii (body body' : nat -> S -> S * bool) s :
  (forall k t, body k t = body' k t) -> for_range fuel ii body s = for_range fuel ii body' s.
Proof.
  intros H. revert ii s. induction fuel as [|k IH]; intros ii s; simpl; [reflexivity|].
  rewrite H. destruct (body' ii s) as [s' b]. destruct b; [reflexivity|apply IH].
Qed.

Lemma booked_new trk cv r rc f : i_iterations f = 0%nat -> i_residuals f = vzeros -> i_residuals_cv f = vzeros ->
  booked trk cv r rc 0 f f.
Proof.
  intros H1 H2 H3. unfold booked. rewrite H2, H3. repeat split; auto.
  - intros k. simpl. rewrite Bool.andb_false_r. reflexivity.
  - intros k. simpl. rewrite Bool.andb_false_r. reflexivity.
Qed.

(** * The solvers in the common shape *)
Section Calls.
  Variable P : problem.
  Let bm := fst (initialize_b_masks (p_bmask P) (p_btest P)).
  Let bt := snd (initialize_b_masks (p_bmask P) (p_btest P)).

  Definition train_norm (dt : dterm) (x : vec) : R :=
    residual_norm (p_m P) dt (compute_residual dt (opA (p_op P) x) bm).
  Definition test_norm (dtt : dterm) (x : vec) : R :=
    residual_norm (p_m P) dtt (compute_residual dtt (opA (p_op P) x) bt).
  Definition tracking : bool := (is_some bt || is_some (p_tol P))%bool.

  (** SIRT *)
  Definition sirt_sigma := diag_sigma (p_m P) (p_op P) 1 (p_xmask P).
  Definition sirt_tau := diag_tau (p_n P) (p_op P) (p_regs P) (p_relax P) bm.
  Definition sirt_dt := assigned P sirt_sigma.
  Definition sirt_dtt := assigned_test P sirt_sigma.
  Definition sirt_step (x : vec) : vec :=
    sirt_update P sirt_sigma sirt_tau x (compute_residual sirt_dt (opA (p_op P) x) bm).
  (** k-th iterate when nothing stops the loop *)
  Definition sirt_iterate (k : nat) : vec := iterate (fun _ => sirt_step) k (pick_x0 (p_x0 P) vzeros).

  Lemma track_record m dt dtt ii Ax res f :
    track m dt dtt bm bt (p_tol P) ii Ax res f =
    (record tracking (is_some bt) ii (residual_norm m dt res) (residual_norm m dtt (compute_residual dtt Ax bt)) f,
     (tracking && below_tol (p_tol P) (residual_norm m dt res))%bool).
  Proof.
    unfold track, record, tracking. destruct bt as [t|]; simpl.
    - reflexivity.
    - destruct (p_tol P); reflexivity.
  Qed.

  Lemma init_info_fresh m dt dtt Ax it :
    let f := init_info m dt dtt bm bt (p_tol P) Ax (new_info it (p_tol P)) in
    i_iterations f = 0%nat /\ i_residuals f = vzeros /\ i_residuals_cv f = vzeros.
  Proof. unfold init_info. destruct bt, (p_tol P); simpl; auto. Qed.

  Definition sirt_f0 it := init_info (p_m P) sirt_dt sirt_dtt bm bt (p_tol P) (opA (p_op P) (pick_x0 (p_x0 P) vzeros)) (new_info it (p_tol P)).

  Lemma sirt_call_eq it : sirt_call P it =
    for_range it 0 (pre_body (fun _ => sirt_step) (train_norm sirt_dt) (test_norm sirt_dtt) tracking (is_some bt) (below_tol (p_tol P)))
      (pick_x0 (p_x0 P) vzeros, sirt_f0 it).
  Proof.
    unfold sirt_call. rewrite (surjective_pairing (initialize_b_masks (p_bmask P) (p_btest P))).
    apply for_range_ext. intros k [x f]. unfold sirt_body, pre_body.
    rewrite track_record. unfold train_norm, test_norm. reflexivity.
  Qed.

  Lemma sirt_char it : exists K, (K <= it)%nat /\
      booked tracking (is_some bt) (fun k => train_norm sirt_dt (sirt_iterate k)) (fun k => test_norm sirt_dtt (sirt_iterate k))
        K (snd (sirt_call P it)) (sirt_f0 it) /\
      (forall k, (S k < K)%nat -> (tracking && below_tol (p_tol P) (train_norm sirt_dt (sirt_iterate k)))%bool = false) /\
      (((1 <= K)%nat /\ (tracking && below_tol (p_tol P) (train_norm sirt_dt (sirt_iterate (K - 1))))%bool = true /\
          fst (sirt_call P it) = sirt_iterate (K - 1)) \/
       (K = it /\ (forall k, (k < K)%nat -> (tracking && below_tol (p_tol P) (train_norm sirt_dt (sirt_iterate k)))%bool = false) /\
          fst (sirt_call P it) = sirt_iterate K)).
  Proof.
    rewrite sirt_call_eq. unfold sirt_iterate.
    match goal with |- context [for_range it 0 ?b (?s, ?f)] =>
      pose proof (pre_loop (fun _ => sirt_step) (train_norm sirt_dt) (test_norm sirt_dtt) tracking (is_some bt) (below_tol (p_tol P)) s f it) as H;
      destruct (for_range it 0 b (s, f)) as [x g] end.
    apply H. apply booked_new; apply init_info_fresh.
  Qed.

  (** PDHG *)
  Variable lipschitz : option R.
  Definition pdhg_tau := match lipschitz with
             | None => diag_tau (p_n P) (p_op P) (p_regs P) (p_relax P) bm
             | Some L => lips_tau L (p_regs P) (p_relax P) end.
  Definition pdhg_sigma := match lipschitz with
               | None => diag_sigma (p_m P) (p_op P) (p_relax P) (p_xmask P)
               | Some L => lips_sigma L (p_relax P) end.
  Definition pdhg_dt := assigned P pdhg_sigma.
  Definition pdhg_dtt := assigned_test P pdhg_sigma.
  Definition pdhg_start := mkPD (pick_x0 (p_x0 P) vzeros) (pick_x0 (p_x0 P) vzeros) vzeros (map r_init_dual (p_regs P)).
  Definition pdhg_step (s : pdhg_state) : pdhg_state := pdhg_update P pdhg_dt bm pdhg_tau s.
  Definition pdhg_iterate (k : nat) : pdhg_state := iterate (fun _ => pdhg_step) k pdhg_start.
  Definition pdhg_f0 it := init_info (p_m P) pdhg_dt pdhg_dtt bm bt (p_tol P) (opA (p_op P) (pick_x0 (p_x0 P) vzeros)) (new_info it (p_tol P)).

  Lemma pdhg_call_eq it : pdhg_call P lipschitz it =
    let sf := for_range it 0 (post_body (fun _ => pdhg_step) (fun s => train_norm pdhg_dt (pd_x s)) (fun s => test_norm pdhg_dtt (pd_x s))
       tracking (is_some bt) (below_tol (p_tol P))) (pdhg_start, pdhg_f0 it) in (pd_x (fst sf), snd sf).
  Proof.
    unfold pdhg_call. rewrite (surjective_pairing (initialize_b_masks (p_bmask P) (p_btest P))).
    fold bm bt. fold pdhg_tau pdhg_sigma. fold pdhg_dt pdhg_dtt. fold pdhg_start. fold (pdhg_f0 it).
    rewrite (for_range_ext it 0 _ (post_body (fun _ => pdhg_step) (fun s => train_norm pdhg_dt (pd_x s)) (fun s => test_norm pdhg_dtt (pd_x s))
       tracking (is_some bt) (below_tol (p_tol P)))).
    - cbv zeta. destruct (for_range it 0 _ (pdhg_start, pdhg_f0 it)) as [s g]. reflexivity.
    - intros k [s f]. unfold pdhg_body, post_body. rewrite track_record. unfold train_norm, test_norm. reflexivity.
  Qed.

  Lemma pdhg_char it : exists K, (K <= it)%nat /\
      booked tracking (is_some bt) (fun k => train_norm pdhg_dt (pd_x (pdhg_iterate (S k)))) (fun k => test_norm pdhg_dtt (pd_x (pdhg_iterate (S k))))
        K (snd (pdhg_call P lipschitz it)) (pdhg_f0 it) /\
      fst (pdhg_call P lipschitz it) = pd_x (pdhg_iterate K) /\
      (forall k, (1 <= k < K)%nat -> (tracking && below_tol (p_tol P) (train_norm pdhg_dt (pd_x (pdhg_iterate k))))%bool = false) /\
      (((1 <= K)%nat /\ (tracking && below_tol (p_tol P) (train_norm pdhg_dt (pd_x (pdhg_iterate K))))%bool = true) \/
       (K = it /\ ((1 <= K)%nat -> (tracking && below_tol (p_tol P) (train_norm pdhg_dt (pd_x (pdhg_iterate K))))%bool = false))).
  Proof.
    rewrite pdhg_call_eq. cbv zeta. unfold pdhg_iterate.
    pose proof (post_loop (fun _ => pdhg_step) (fun s => train_norm pdhg_dt (pd_x s)) (fun s => test_norm pdhg_dtt (pd_x s))
       tracking (is_some bt) (below_tol (p_tol P)) pdhg_start (pdhg_f0 it) it) as H.
    destruct (for_range it 0 _ (pdhg_start, pdhg_f0 it)) as [x g].
    destruct H as (K & H1 & H2 & H3 & H4 & H5); [apply booked_new; apply init_info_fresh|].
    exists K. simpl. rewrite H3. auto.
  Qed.

  (** FISTA *)
  Variable restart : option nat.
  Definition fi_tau := match lipschitz with
             | None => diag_tau (p_n P) (p_op P) [] (p_relax P) bm
             | Some L => lips_tau L [] (p_relax P) end.
  Definition fi_sigma := match lipschitz with
               | None => diag_sigma (p_m P) (p_op P) 1 (p_xmask P)
               | Some L => lips_sigma L 1 end.
  Definition fi_dt := assigned P vones.
  Definition fi_dtt := assigned_test P vones.
  Definition fi_x0 := mul_mask (p_xmask P) (pick_x0 (p_x0 P) vzeros).
  Definition fista_step (ii : nat) (s : fista_state) : fista_state := fista_update P fi_dt bm fi_sigma fi_tau restart ii s.
  Definition fista_iterate (k : nat) : fista_state := iterate fista_step k (mkFI fi_x0 fi_x0 1).
  Definition fista_f0 it := init_info (p_m P) fi_dt fi_dtt bm bt (p_tol P) (opA (p_op P) fi_x0) (new_info it (p_tol P)).

  Lemma fista_call_eq it : fista_call P lipschitz restart it =
    let sf := for_range it 0 (post_body fista_step (fun s => train_norm fi_dt (fi_x s)) (fun s => test_norm fi_dtt (fi_x s))
       tracking (is_some bt) (below_tol (p_tol P))) (mkFI fi_x0 fi_x0 1, fista_f0 it) in (fi_x (fst sf), snd sf).
  Proof.
    unfold fista_call. rewrite (surjective_pairing (initialize_b_masks (p_bmask P) (p_btest P))).
    fold bm bt. fold fi_tau fi_sigma. fold fi_dt fi_dtt. fold fi_x0. fold (fista_f0 it).
    rewrite (for_range_ext it 0 _ (post_body fista_step (fun s => train_norm fi_dt (fi_x s)) (fun s => test_norm fi_dtt (fi_x s))
       tracking (is_some bt) (below_tol (p_tol P)))).
    - cbv zeta. destruct (for_range it 0 _ (mkFI fi_x0 fi_x0 1, fista_f0 it)) as [s g]. reflexivity.
    - intros k [s f]. unfold fista_body, post_body. rewrite track_record. unfold train_norm, test_norm. reflexivity.
  Qed.

  Lemma fista_char it : exists K, (K <= it)%nat /\
      booked tracking (is_some bt) (fun k => train_norm fi_dt (fi_x (fista_iterate (S k)))) (fun k => test_norm fi_dtt (fi_x (fista_iterate (S k))))
        K (snd (fista_call P lipschitz restart it)) (fista_f0 it) /\
      fst (fista_call P lipschitz restart it) = fi_x (fista_iterate K) /\
      (forall k, (1 <= k < K)%nat -> (tracking && below_tol (p_tol P) (train_norm fi_dt (fi_x (fista_iterate k))))%bool = false) /\
      (((1 <= K)%nat /\ (tracking && below_tol (p_tol P) (train_norm fi_dt (fi_x (fista_iterate K))))%bool = true) \/
       (K = it /\ ((1 <= K)%nat -> (tracking && below_tol (p_tol P) (train_norm fi_dt (fi_x (fista_iterate K))))%bool = false))).
  Proof.
    rewrite fista_call_eq. cbv zeta. unfold fista_iterate.
    pose proof (post_loop fista_step (fun s => train_norm fi_dt (fi_x s)) (fun s => test_norm fi_dtt (fi_x s))
       tracking (is_some bt) (below_tol (p_tol P)) (mkFI fi_x0 fi_x0 1) (fista_f0 it) it) as H.
    destruct (for_range it 0 _ (mkFI fi_x0 fi_x0 1, fista_f0 it)) as [x g].
    destruct H as (K & H1 & H2 & H3 & H4 & H5); [apply booked_new; apply init_info_fresh|].
    exists K. simpl. rewrite H3. auto.
  Qed.

  (** MLEM: the training residual is tracked only with a tolerance. *)
  Definition ml_tau := opAt (p_op P) (ones_masked bm).
  Definition ml_x0 := mul_mask (p_xmask P) (pick_x0 (p_x0 P) vones).
  Definition mlem_step (x : vec) : vec := mlem_update P fi_dt ml_tau x.
  Definition mlem_iterate (k : nat) : vec := iterate (fun _ => mlem_step) k ml_x0.
  Definition mlem_f0 it : info :=
    let f := new_info it (p_tol P) in
    let f := match bt with Some _ => set_residual0_cv f (test_norm fi_dtt ml_x0) | None => f end in
    match p_tol P with Some _ => set_residual0 f (train_norm fi_dt ml_x0) | None => f end.

  Lemma mlem_call_eq it : mlem_call P it =
    for_range it 0 (pre_body (fun _ => mlem_step) (train_norm fi_dt) (test_norm fi_dtt) (is_some (p_tol P)) (is_some bt) (below_tol (p_tol P)))
      (ml_x0, mlem_f0 it).
  Proof.
    unfold mlem_call. rewrite (surjective_pairing (initialize_b_masks (p_bmask P) (p_btest P))).
    fold bm bt. apply for_range_ext. intros k [x f]. unfold mlem_body, pre_body, record, train_norm, test_norm.
    destruct (p_tol P) as [t|]; simpl; destruct bt; simpl; try reflexivity;
      destruct (Rlt_dec _ t); reflexivity.
  Qed.

  Lemma mlem_char it : exists K, (K <= it)%nat /\
      booked (is_some (p_tol P)) (is_some bt) (fun k => train_norm fi_dt (mlem_iterate k)) (fun k => test_norm fi_dtt (mlem_iterate k))
        K (snd (mlem_call P it)) (mlem_f0 it) /\
      (forall k, (S k < K)%nat -> (is_some (p_tol P) && below_tol (p_tol P) (train_norm fi_dt (mlem_iterate k)))%bool = false) /\
      (((1 <= K)%nat /\ (is_some (p_tol P) && below_tol (p_tol P) (train_norm fi_dt (mlem_iterate (K - 1))))%bool = true /\
          fst (mlem_call P it) = mlem_iterate (K - 1)) \/
       (K = it /\ (forall k, (k < K)%nat -> (is_some (p_tol P) && below_tol (p_tol P) (train_norm fi_dt (mlem_iterate k)))%bool = false) /\
          fst (mlem_call P it) = mlem_iterate K)).
  Proof.
    rewrite mlem_call_eq. unfold mlem_iterate.
    match goal with |- context [for_range it 0 ?b (?s, ?f)] =>
      pose proof (pre_loop (fun _ => mlem_step) (train_norm fi_dt) (test_norm fi_dtt) (is_some (p_tol P)) (is_some bt) (below_tol (p_tol P)) s f it) as H;
      destruct (for_range it 0 b (s, f)) as [x g] end.
    apply H. apply booked_new; unfold mlem_f0; destruct bt, (p_tol P); reflexivity.
  Qed.
End Calls.
