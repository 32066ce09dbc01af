(** Theorems C24-C29: constraints, bookkeeping and cross-validation hygiene of the solvers. *)
From Verif Require Import Sums DataTermsModel DataTermsProofs DataTermsProps SolversModel SolversSpec SolversGeneric.

(** The limits given by the user are consistent. *)
Definition limits_ok (P : problem) : Prop :=
  forall l u j, p_lower P = Some l -> p_upper P = Some u -> (j < p_n P)%nat -> l j <= u j.
Definition obeys_limits (P : problem) (x : vec) : Prop := feasible (p_lower P) (p_upper P) (p_xmask P) (p_n P) x.

(** The same problem with other tolerance / data. *)
Definition with_tol (P : problem) (tol : option R) : problem :=
  mkProblem (p_n P) (p_m P) (p_op P) (p_b P) (p_x0 P) (p_lower P) (p_upper P) (p_xmask P) (p_bmask P) (p_btest P)
    tol (p_relax P) (p_regs P) (p_dterm P) (p_dterm_test P).
Definition with_data (P : problem) (b : vec) : problem :=
  mkProblem (p_n P) (p_m P) (p_op P) b (p_x0 P) (p_lower P) (p_upper P) (p_xmask P) (p_bmask P) (p_btest P)
    (p_tol P) (p_relax P) (p_regs P) (p_dterm P) (p_dterm_test P).

(** * C24 *)
Lemma sirt_iterate_feasible P k : limits_ok P -> (1 <= k)%nat -> obeys_limits P (sirt_iterate P k).
Proof. intros H Hk. destruct k; [lia|]. apply constrain_feasible. exact H. Qed.

Lemma mlem_iterate_feasible P k : limits_ok P -> (1 <= k)%nat -> obeys_limits P (mlem_iterate P k).
Proof. intros H Hk. destruct k; [lia|]. apply constrain_feasible. exact H. Qed.

Lemma pdhg_iterate_feasible P l k : limits_ok P -> (1 <= k)%nat -> obeys_limits P (pd_x (pdhg_iterate P l k)).
Proof. intros H Hk. destruct k; [lia|]. apply constrain_feasible. exact H. Qed.

Lemma fista_iterate_feasible P l r k : limits_ok P -> (1 <= k)%nat -> obeys_limits P (fi_x (fista_iterate P l r k)).
Proof. intros H Hk. destruct k; [lia|]. apply constrain_feasible. exact H. Qed.

Lemma no_tol_no_stop P b r : p_tol P = None -> (b && below_tol (p_tol P) r)%bool = true -> False.
Proof. intros ->. simpl. rewrite Bool.andb_false_r. discriminate. Qed.

(** SIRT tests the tolerance before updating, so at least one update happened iff there is no tolerance
    and one iteration, or two iterations were started. *)
Theorem C24_sirt_limits : forall P it, limits_ok P -> (1 <= it)%nat ->
  p_tol P = None \/ (2 <= i_iterations (snd (sirt_call P it)))%nat ->
  obeys_limits P (fst (sirt_call P it)).
Proof.
  intros P it Hl Hi Hc. destruct (sirt_char P it) as (K & HK & Hb & _ & Hend).
  destruct Hb as (HK' & _). rewrite HK' in Hc.
  destruct Hend as [(H1 & Hs & ->)|(-> & _ & ->)].
  - apply sirt_iterate_feasible; auto. destruct Hc as [Hc|Hc]; [|lia].
    exfalso. eapply no_tol_no_stop; eauto.
  - apply sirt_iterate_feasible; auto.
Qed.

Theorem C24_mlem_limits : forall P it, limits_ok P -> (1 <= it)%nat ->
  p_tol P = None \/ (2 <= i_iterations (snd (mlem_call P it)))%nat ->
  obeys_limits P (fst (mlem_call P it)).
Proof.
  intros P it Hl Hi Hc. destruct (mlem_char P it) as (K & HK & Hb & _ & Hend).
  destruct Hb as (HK' & _). rewrite HK' in Hc.
  destruct Hend as [(H1 & Hs & ->)|(-> & _ & ->)].
  - apply mlem_iterate_feasible; auto. destruct Hc as [Hc|Hc]; [|lia].
    exfalso. eapply no_tol_no_stop; eauto.
  - apply mlem_iterate_feasible; auto.
Qed.

(** PDHG and FISTA update before testing: one requested iteration is enough. *)
Theorem C24_pdhg_limits : forall P lipschitz it, limits_ok P -> (1 <= it)%nat ->
  obeys_limits P (fst (pdhg_call P lipschitz it)).
Proof.
  intros P l it Hl Hi. destruct (pdhg_char P l it) as (K & HK & Hb & -> & _ & Hend).
  apply pdhg_iterate_feasible; auto. destruct Hend as [[H _]|[-> _]]; auto.
Qed.

Theorem C24_fista_limits : forall P lipschitz restart it, limits_ok P -> (1 <= it)%nat ->
  obeys_limits P (fst (fista_call P lipschitz restart it)).
Proof.
  intros P l r it Hl Hi. destruct (fista_char P l r it) as (K & HK & Hb & -> & _ & Hend).
  apply fista_iterate_feasible; auto. destruct Hend as [[H _]|[-> _]]; auto.
Qed.

Theorem C24_fbp_limits : forall op filt w b lo up x_mask n,
  (forall l u j, lo = Some l -> up = Some u -> (j < n)%nat -> l j <= u j) ->
  feasible lo up x_mask n (fbp_call op filt w b lo up x_mask).
Proof. intros. apply constrain_feasible. assumption. Qed.

Theorem C24_sart_limits : forall n d nrows op b b_mask relax x0 lo up x_mask rows it,
  (forall l u j, lo = Some l -> up = Some u -> (j < n)%nat -> l j <= u j) ->
  (1 <= it)%nat -> rows <> [] ->
  feasible lo up x_mask n (sart_call n d nrows op b b_mask relax x0 lo up x_mask rows it).
Proof.
  intros n d nrows op b b_mask relax x0 lo up x_mask rows it Hl Hi Hr. unfold sart_call.
  apply (for_range_inv (fun k x => (1 <= k)%nat -> feasible lo up x_mask n x)).
  - intros H; lia.
  - intros k x _ _ _. unfold sart_sweep.
    destruct (exists_last Hr) as (l & a & ->). rewrite fold_left_app. simpl.
    apply constrain_feasible. exact Hl.
  - intros x H. apply H. lia.
Qed.

(** * C25 *)
Lemma iterate_inv {S} (Q : S -> Prop) upd k s : Q s -> (forall j t, Q t -> Q (upd j t)) -> Q (iterate upd k s).
Proof. intros H0 Hs. induction k; simpl; auto. Qed.

(** the solvers never leave the feasible set once in it, also with zero updates. *)
Theorem C25_sirt_feasible_start : forall P it, limits_ok P ->
  obeys_limits P (pick_x0 (p_x0 P) vzeros) -> obeys_limits P (fst (sirt_call P it)).
Proof.
  intros P it Hl H0. destruct (sirt_char P it) as (K & HK & _ & _ & Hend).
  assert (H : forall k, obeys_limits P (sirt_iterate P k)).
  { intros k. destruct k; [exact H0|]. apply sirt_iterate_feasible; [auto|lia]. }
  destruct Hend as [(_ & _ & ->)|(_ & _ & ->)]; apply H.
Qed.

Theorem C25_pdhg_feasible_start : forall P lipschitz it, limits_ok P ->
  obeys_limits P (pick_x0 (p_x0 P) vzeros) -> obeys_limits P (fst (pdhg_call P lipschitz it)).
Proof.
  intros P l it Hl H0. destruct (pdhg_char P l it) as (K & HK & _ & -> & _).
  destruct K; [exact H0|]. apply pdhg_iterate_feasible; [auto|lia].
Qed.

Theorem C25_fista_feasible_start : forall P lipschitz restart it, limits_ok P ->
  obeys_limits P (mul_mask (p_xmask P) (pick_x0 (p_x0 P) vzeros)) -> obeys_limits P (fst (fista_call P lipschitz restart it)).
Proof.
  intros P l r it Hl H0. destruct (fista_char P l r it) as (K & HK & _ & -> & _).
  destruct K; [exact H0|]. apply fista_iterate_feasible; [auto|lia].
Qed.

(** a one-voxel, one-pixel problem with identity operator. *)
Definition id_op : linop := mkOp (fun x => x) (fun x => x) (fun x => x) (fun x => x).
Definition tiny (b : R) (x0 : option vec) (lo : option vec) (tol : option R) : problem :=
  mkProblem 1 1 id_op (fun _ => b) x0 lo None None None None tol 1 [] (new_dterm K_l2 None) (new_dterm K_l2 None).

(** REFUTED: with iterations = 0 the infeasible initial volume is returned. *)
Theorem C25_zero_iterations_refuted : exists P, limits_ok P /\
  ~ obeys_limits P (fst (sirt_call P 0)) /\ ~ obeys_limits P (fst (pdhg_call P None 0)) /\
  ~ obeys_limits P (fst (fista_call P None None 0)).
Proof.
  exists (tiny 0 (Some (fun _ => -1)) (Some vzeros) None).
  split; [intros l u j Hl Hu; discriminate|].
  repeat split; intros H; specialize (H 0%nat (Nat.lt_0_succ 0)); cbn in H; destruct H as [_ H];
    destruct (H I) as [H1 _]; unfold vzeros in H1; lra.
Qed.

(** REFUTED: SIRT stopped at its first residual check returns the infeasible initial volume. *)
Theorem C25_sirt_early_stop_refuted : exists P it, limits_ok P /\ (1 <= it)%nat /\
  ~ obeys_limits P (fst (sirt_call P it)).
Proof.
  exists (tiny (-1) (Some (fun _ => -1)) (Some vzeros) (Some 1)), 5%nat.
  split; [intros l u j Hl Hu; discriminate|]. split; [lia|].
  set (P := tiny _ _ _ _).
  assert (E : fst (sirt_call P 5) = (fun _ => -1)).
  { destruct (sirt_char P 5) as (K & HK & _ & Hns & Hend).
    assert (Hs : (tracking P && below_tol (p_tol P) (train_norm P (sirt_dt P) (sirt_iterate P 0)))%bool = true).
    { unfold tracking, below_tol. simpl. destruct (Rlt_dec _ 1) as [_|n]; [reflexivity|]. exfalso. apply n.
      unfold train_norm, sirt_dt, residual_norm, norm_l2, norm2. cbn -[sqrt pow].
      match goal with |- context [sqrt ?a] => replace a with 0 by (unfold opt_sub; simpl; ring) end. rewrite sqrt_0. lra. }
    destruct Hend as [(H1 & H2 & E)|(E1 & E2 & _)].
    - destruct K as [|[|K]]; [lia|exact E|]. rewrite (Hns 0%nat) in Hs by lia. discriminate.
    - subst K. rewrite (E2 0%nat) in Hs by lia. discriminate. }
  rewrite E. intros H. specialize (H 0%nat (Nat.lt_0_succ 0)). destruct H as [_ H]. destruct (H I) as [H1 _].
  cbn in H1. unfold vzeros in H1. lra.
Qed.

(** Non-vacuity: a run that updates. *)
Example C24_example : fst (sirt_call (tiny 5 None (Some vzeros) None) 1) 0%nat = 5.
Proof.
  cbn. unfold constrain, np_clip, mul_mask, vadd, vmul, diag_tau, diag_sigma, guard_small, raw_tau, raw_sigma. simpl.
  unfold vones, vzeros. rewrite !Rabs_R1. destruct (Rlt_dec _ _); rewrite Rmax_left; lra.
Qed.

(** * C26 *)
Lemma sirt_iterate_tol P t k : sirt_iterate (with_tol P t) k = sirt_iterate P k.
Proof. reflexivity. Qed.

Lemma sirt_no_tol P k : fst (sirt_call (with_tol P None) k) = sirt_iterate P k.
Proof.
  destruct (sirt_char (with_tol P None) k) as (K & HK & _ & _ & [(_ & H & _)|(-> & _ & ->)]); [|apply sirt_iterate_tol].
  exfalso. eapply no_tol_no_stop; eauto. reflexivity.
Qed.
Lemma mlem_no_tol P k : fst (mlem_call (with_tol P None) k) = mlem_iterate P k.
Proof.
  destruct (mlem_char (with_tol P None) k) as (K & HK & _ & _ & [(_ & H & _)|(-> & _ & ->)]); [|reflexivity].
  exfalso. eapply no_tol_no_stop; eauto. reflexivity.
Qed.
Lemma pdhg_no_tol P l k : fst (pdhg_call (with_tol P None) l k) = pd_x (pdhg_iterate P l k).
Proof.
  destruct (pdhg_char (with_tol P None) l k) as (K & HK & _ & -> & _ & [(_ & H)|(-> & _)]); [|reflexivity].
  exfalso. eapply no_tol_no_stop; eauto. reflexivity.
Qed.
Lemma fista_no_tol P l r k : fst (fista_call (with_tol P None) l r k) = fi_x (fista_iterate P l r k).
Proof.
  destruct (fista_char (with_tol P None) l r k) as (K & HK & _ & -> & _ & [(_ & H)|(-> & _)]); [|reflexivity].
  exfalso. eapply no_tol_no_stop; eauto. reflexivity.
Qed.

(** What the book-keeping must say for a solver that checks before updating: [X k] is the volume after
    k updates, [r] the training residual norm of a volume, [t] the tolerance. *)
Definition stops_before (X : nat -> vec) (r : vec -> R) (t : R) (it : nat) (res : vec * info) : Prop :=
  let '(x, f) := res in let K := i_iterations f in
  (K <= it)%nat /\ i_max_iterations f = it /\ i_residual0 f = Some (r (X 0%nat)) /\
  (forall k, (k < K)%nat -> i_residuals f k = r (X k)) /\
  (forall k, (K <= k)%nat -> i_residuals f k = 0) /\
  (forall k, (S k < K)%nat -> t <= r (X k)) /\
  ( (exists k, K = S k /\ r (X k) < t /\ x = X k) \/
    (K = it /\ (forall k, (k < K)%nat -> t <= r (X k)) /\ x = X it) ).
(** ... and for one that checks after updating. *)
Definition stops_after (X : nat -> vec) (r : vec -> R) (t : R) (it : nat) (res : vec * info) : Prop :=
  let '(x, f) := res in let K := i_iterations f in
  (K <= it)%nat /\ i_max_iterations f = it /\ i_residual0 f = Some (r (X 0%nat)) /\
  (forall k, (k < K)%nat -> i_residuals f k = r (X (S k))) /\
  (forall k, (K <= k)%nat -> i_residuals f k = 0) /\
  (forall k, (1 <= k < K)%nat -> t <= r (X k)) /\ x = X K /\
  ( ((1 <= K)%nat /\ r (X K) < t) \/ (K = it /\ ((1 <= K)%nat -> t <= r (X K))) ).

Lemma below_tol_true t r : below_tol (Some t) r = true <-> r < t.
Proof. unfold below_tol. destruct (Rlt_dec r t); split; intros; auto; discriminate. Qed.
Lemma below_tol_false t r : below_tol (Some t) r = false <-> t <= r.
Proof. unfold below_tol. destruct (Rlt_dec r t); split; intros; auto; try discriminate; lra. Qed.

Lemma booked_rows trk cv r rc K f f0 : booked trk cv r rc K f f0 -> trk = true ->
  i_iterations f = K /\ (forall k, (k < K)%nat -> i_residuals f k = r k) /\ (forall k, (K <= k)%nat -> i_residuals f k = 0).
Proof.
  intros (H1 & _ & _ & _ & _ & H6 & _) ->. split; [exact H1|]. split; intros k Hk; rewrite H6; simpl.
  - rewrite (proj2 (Nat.ltb_lt k K) Hk). reflexivity.
  - rewrite (proj2 (Nat.ltb_ge k K) Hk). reflexivity.
Qed.

Lemma stops_before_intro X r t it res trk cv rc f0 :
  trk = true ->
  (exists K, (K <= it)%nat /\
     booked trk cv (fun k => r (X k)) rc K (snd res) f0 /\
     (forall k, (S k < K)%nat -> (trk && below_tol (Some t) (r (X k)))%bool = false) /\
     (((1 <= K)%nat /\ (trk && below_tol (Some t) (r (X (K - 1)%nat)))%bool = true /\ fst res = X (K - 1)%nat) \/
      (K = it /\ (forall k, (k < K)%nat -> (trk && below_tol (Some t) (r (X k)))%bool = false) /\ fst res = X K))) ->
  i_max_iterations f0 = it -> i_residual0 f0 = Some (r (X 0%nat)) ->
  stops_before X r t it res.
Proof.
  intros -> (K & H1 & Hb & H3 & H4) Hm H0. destruct res as [x f]. simpl in *.
  destruct (booked_rows _ _ _ _ _ _ _ Hb eq_refl) as (E1 & E2 & E3). destruct Hb as (_ & B2 & _ & B4 & _).
  unfold stops_before. rewrite E1, B2, B4. repeat split; auto.
  - intros k Hk. apply below_tol_false, H3, Hk.
  - destruct H4 as [(A & B & ->)|(A & B & ->)].
    + left. exists (K - 1)%nat. split; [lia|]. split; [|reflexivity]. apply below_tol_true, B.
    + right. subst K. split; [reflexivity|]. split; [|reflexivity]. intros k Hk. apply below_tol_false, B, Hk.
Qed.

Lemma stops_after_intro X r t it res trk cv rc f0 :
  trk = true ->
  (exists K, (K <= it)%nat /\
     booked trk cv (fun k => r (X (S k))) rc K (snd res) f0 /\ fst res = X K /\
     (forall k, (1 <= k < K)%nat -> (trk && below_tol (Some t) (r (X k)))%bool = false) /\
     (((1 <= K)%nat /\ (trk && below_tol (Some t) (r (X K)))%bool = true) \/
      (K = it /\ ((1 <= K)%nat -> (trk && below_tol (Some t) (r (X K)))%bool = false)))) ->
  i_max_iterations f0 = it -> i_residual0 f0 = Some (r (X 0%nat)) ->
  stops_after X r t it res.
Proof.
  intros -> (K & H1 & Hb & Hx & H3 & H4) Hm H0. destruct res as [x f]. simpl in *.
  destruct (booked_rows _ _ _ _ _ _ _ Hb eq_refl) as (E1 & E2 & E3). destruct Hb as (_ & B2 & _ & B4 & _).
  unfold stops_after. rewrite E1, B2, B4. repeat split; auto.
  - intros k Hk. apply below_tol_false, H3, Hk.
  - destruct H4 as [(A & B)|(A & B)].
    + left. split; [exact A|]. apply below_tol_true, B.
    + right. split; [exact A|]. intros Hk. apply below_tol_false, B, Hk.
Qed.

Lemma tracking_tol P t : p_tol P = Some t -> tracking P = true.
Proof. intros E. unfold tracking. rewrite E. apply Bool.orb_true_r. Qed.

Lemma init_info_book m dt dtt bm bt t Ax it :
  let f := init_info m dt dtt bm bt (Some t) Ax (new_info it (Some t)) in
  i_max_iterations f = it /\ i_residual0 f = Some (residual_norm m dt (compute_residual dt Ax bm)).
Proof. unfold init_info. destruct bt; simpl; auto. Qed.

Theorem C26_sirt_bookkeeping : forall P t it, p_tol P = Some t ->
  stops_before (fun k => fst (sirt_call (with_tol P None) k)) (train_norm P (sirt_dt P)) t it (sirt_call P it).
Proof.
  intros P t it Ht. replace (fun k => fst (sirt_call (with_tol P None) k)) with (sirt_iterate P)
    by (apply functional_extensionality; intros; symmetry; apply sirt_no_tol).
  pose proof (sirt_char P it) as H. rewrite Ht in H.
  eapply stops_before_intro; [eapply tracking_tol; eauto| exact H | |];
    unfold sirt_f0; rewrite Ht; apply init_info_book.
Qed.

Theorem C26_mlem_bookkeeping : forall P t it, p_tol P = Some t ->
  stops_before (fun k => fst (mlem_call (with_tol P None) k)) (train_norm P (fi_dt P)) t it (mlem_call P it).
Proof.
  intros P t it Ht. replace (fun k => fst (mlem_call (with_tol P None) k)) with (mlem_iterate P)
    by (apply functional_extensionality; intros; symmetry; apply mlem_no_tol).
  pose proof (mlem_char P it) as H. rewrite Ht in H.
  eapply stops_before_intro; [| exact H | |]; [reflexivity| |];
    unfold mlem_f0; rewrite Ht; destruct (snd _); reflexivity.
Qed.

Theorem C26_pdhg_bookkeeping : forall P l t it, p_tol P = Some t ->
  stops_after (fun k => fst (pdhg_call (with_tol P None) l k)) (train_norm P (pdhg_dt P l)) t it (pdhg_call P l it).
Proof.
  intros P l t it Ht. replace (fun k => fst (pdhg_call (with_tol P None) l k)) with (fun k => pd_x (pdhg_iterate P l k))
    by (apply functional_extensionality; intros; symmetry; apply pdhg_no_tol).
  pose proof (pdhg_char P l it) as H. rewrite Ht in H.
  eapply stops_after_intro; [eapply tracking_tol; eauto| exact H | |];
    unfold pdhg_f0; rewrite Ht; apply init_info_book.
Qed.

Theorem C26_fista_bookkeeping : forall P l r t it, p_tol P = Some t ->
  stops_after (fun k => fst (fista_call (with_tol P None) l r k)) (train_norm P (fi_dt P)) t it (fista_call P l r it).
Proof.
  intros P l r t it Ht. replace (fun k => fst (fista_call (with_tol P None) l r k)) with (fun k => fi_x (fista_iterate P l r k))
    by (apply functional_extensionality; intros; symmetry; apply fista_no_tol).
  pose proof (fista_char P l r it) as H. rewrite Ht in H.
  eapply stops_after_intro; [eapply tracking_tol; eauto| exact H | |];
    unfold fista_f0; rewrite Ht; apply init_info_book.
Qed.

(** * C27 *)
(** [b] and [b'] agree on every pixel that is not held out. *)
Definition agree_on_training (t b b' : vec) : Prop := forall i, t i <> 1 -> b i = b' i.

(** same volume, same iterations, same training residuals *)
Definition info_train_eq (f f' : info) : Prop :=
  i_iterations f = i_iterations f' /\ i_residual0 f = i_residual0 f' /\ i_residuals f = i_residuals f'.
Definition same_outcome (r r' : vec * info) : Prop := fst r = fst r' /\ info_train_eq (snd r) (snd r').

Lemma train_mask_zero bm t i : t i = 1 -> forall m, fst (initialize_b_masks bm (Some t)) = Some m -> m i = 0.
Proof. intros E m H. simpl in H. injection H as <-. rewrite E. ring. Qed.

Lemma residual_train_eq dt sigma proj bm t b b' : agree_on_training t b b' ->
  compute_residual (assign_data dt (Some b) sigma) proj (fst (initialize_b_masks bm (Some t))) =
  compute_residual (assign_data dt (Some b') sigma) proj (fst (initialize_b_masks bm (Some t))).
Proof.
  intros H. apply vec_ext. intros i. simpl. apply C17_residual_mask_noninterference.
  intros Hne. apply H. intros E. apply Hne. rewrite E. ring.
Qed.

Lemma residual_norm_assign m dt b b' sigma r : residual_norm m (assign_data dt b sigma) r = residual_norm m (assign_data dt b' sigma) r.
Proof. unfold residual_norm. simpl. reflexivity. Qed.

Lemma track_noninterf m dt dtt sigma b b' bm t tol ii Ax f f' :
  agree_on_training t b b' -> info_train_eq f f' ->
  let tm := fst (initialize_b_masks bm (Some t)) in let te := snd (initialize_b_masks bm (Some t)) in
  let a := track m (assign_data dt (Some b) sigma) (assign_data dtt (Some b) sigma) tm te tol ii Ax
             (compute_residual (assign_data dt (Some b) sigma) Ax tm) f in
  let a' := track m (assign_data dt (Some b') sigma) (assign_data dtt (Some b') sigma) tm te tol ii Ax
             (compute_residual (assign_data dt (Some b') sigma) Ax tm) f' in
  info_train_eq (fst a) (fst a') /\ snd a = snd a'.
Proof.
  intros Hb (E1 & E2 & E3) tm te a a'. subst a a' tm te.
  rewrite (residual_train_eq dt sigma Ax bm t b b' Hb). unfold track. simpl is_some. cbn [orb].
  set (r := compute_residual _ _ _). rewrite (residual_norm_assign m dt (Some b) (Some b')).
  simpl. split; [|reflexivity]. unfold info_train_eq. simpl. rewrite E1, E2, E3. auto.
Qed.

Lemma init_noninterf m dt dtt sigma b b' bm t tol Ax it :
  agree_on_training t b b' ->
  let tm := fst (initialize_b_masks bm (Some t)) in let te := snd (initialize_b_masks bm (Some t)) in
  info_train_eq
   (init_info m (assign_data dt (Some b) sigma) (assign_data dtt (Some b) sigma) tm te tol Ax (new_info it tol))
   (init_info m (assign_data dt (Some b') sigma) (assign_data dtt (Some b') sigma) tm te tol Ax (new_info it tol)).
Proof.
  intros Hb tm te. unfold init_info. subst tm te. rewrite (residual_train_eq dt sigma Ax bm t b b' Hb).
  simpl. rewrite (residual_norm_assign m dt (Some b) (Some b')). repeat split.
Qed.

Lemma info_incr f f' : info_train_eq f f' -> info_train_eq (incr_iterations f) (incr_iterations f').
Proof. intros (A & B & C). repeat split; simpl; auto. Qed.

Theorem C27_sirt_noninterference : forall P t b' it,
  p_btest P = Some t -> agree_on_training t (p_b P) b' ->
  same_outcome (sirt_call P it) (sirt_call (with_data P b') it).
Proof.
  intros P t b' it Ht Hb. unfold sirt_call. simpl. rewrite Ht. cbn [initialize_b_masks].
  apply (for_range_rel (fun r r' => same_outcome r r')).
  - split; [reflexivity|]. simpl snd. apply (init_noninterf _ _ _ _ _ _ (p_bmask P) t); exact Hb.
  - intros k [x f] [x' f'] [E Hf]. simpl in E. subst x'. simpl in Hf.
    unfold sirt_body. cbn [with_data p_op p_m p_tol].
    set (sigma := diag_sigma _ _ _ _).
    pose proof (track_noninterf (p_m P) (p_dterm P) (sync_background (p_dterm P) (p_dterm_test P)) sigma (p_b P) b' (p_bmask P) t (p_tol P) k
      (opA (p_op P) x) _ _ Hb (info_incr _ _ Hf)) as H. cbv zeta in H. cbn [initialize_b_masks fst snd] in H.
    pose proof (residual_train_eq (p_dterm P) sigma (opA (p_op P) x) (p_bmask P) t (p_b P) b' Hb) as Er.
    cbn [initialize_b_masks fst snd] in Er.
    unfold assigned, assigned_test in *. cbn [with_data p_dterm p_dterm_test p_b].
    rewrite <- Er in *.
    destruct (track _ _ _ _ _ _ k _ _ (incr_iterations f)) as [g brk].
    destruct (track _ _ _ _ _ _ k _ _ (incr_iterations f')) as [g' brk']. simpl in H. destruct H as [H1 H2]. subst brk'.
    destruct brk; simpl; split; auto; split; auto.
Qed.

Lemma prox_dual_pointwise dt sigma w b b' d d' i : elementwise_kind (dt_kind dt) -> b i = b' i -> d i = d' i ->
  proximal_dual (assign_data dt (Some b) sigma) w d i = proximal_dual (assign_data dt (Some b') sigma) w d' i.
Proof.
  intros Hk Eb Ed. unfold proximal_dual, sub_sigma_data, assign_data, soft_threshold, hook_threshold, inner_norm, compute_sigma_data.
  destruct (dt_kind dt) eqn:E; simpl in *; try contradiction; rewrite ?Eb, ?Ed; try reflexivity.
  - destruct l2_axis; [contradiction|]. rewrite ?Eb, ?Ed. reflexivity.
  - unfold soft_threshold. rewrite Eb, Ed. reflexivity.
Qed.

Theorem C27_pdhg_noninterference : forall P l t b' it,
  elementwise_kind (dt_kind (p_dterm P)) ->
  p_btest P = Some t -> agree_on_training t (p_b P) b' ->
  same_outcome (pdhg_call P l it) (pdhg_call (with_data P b') l it).
Proof.
  intros P l t b' it Hk Ht Hb. unfold pdhg_call. simpl. rewrite Ht. cbn [initialize_b_masks].
  set (sigma := match l with None => _ | Some L => lips_sigma L (p_relax P) end).
  set (tau := match l with None => _ | Some L => lips_tau _ _ _ end).
  unfold assigned, assigned_test. cbn [with_data p_dterm p_dterm_test p_b].
  set (tm := Some (fun i => _ i * (1 - t i))) in *. set (te := Some (fun i => t i * _)) in *.
  match goal with |- same_outcome (let '(_, _) := for_range _ _ ?b1 ?s1 in _) (let '(_, _) := for_range _ _ ?b2 ?s2 in _) =>
    assert (H : fst (for_range it 0 b1 s1) = fst (for_range it 0 b2 s2) /\
                info_train_eq (snd (for_range it 0 b1 s1)) (snd (for_range it 0 b2 s2))) end.
  2:{ destruct (for_range it 0 _ _) as [a f], (for_range it 0 _ _) as [a' f']. simpl in H. destruct H as [-> H]. split; auto. }
  apply (for_range_rel (fun (r r' : pdhg_state * info) => fst r = fst r' /\ info_train_eq (snd r) (snd r'))).
  - split; [reflexivity|]. simpl snd. apply (init_noninterf _ _ _ _ _ _ (p_bmask P) t). exact Hb.
  - intros k [s f] [s' f'] [E Hf]. simpl in E. subst s'. simpl in Hf.
    unfold pdhg_body. cbn [with_data p_op p_m p_tol].
    assert (Eu : pdhg_update (with_data P b') (assign_data (p_dterm P) (Some b') sigma) tm tau s =
                 pdhg_update P (assign_data (p_dterm P) (Some (p_b P)) sigma) tm tau s).
    { unfold pdhg_update. cbn [with_data p_op p_regs p_lower p_upper p_xmask].
      match goal with |- context [mul_mask tm (proximal_dual (assign_data (p_dterm P) (Some b') sigma) vones ?d)] =>
        assert (Ep : mul_mask tm (proximal_dual (assign_data (p_dterm P) (Some b') sigma) vones d) =
                     mul_mask tm (proximal_dual (assign_data (p_dterm P) (Some (p_b P)) sigma) vones
                       (update_dual (assign_data (p_dterm P) (Some (p_b P)) sigma) (pd_p s) (opA (p_op P) (pd_xrelax s))))) end.
      { apply vec_ext. intros i. simpl. destruct (Req_dec (t i) 1) as [E|E]; [rewrite E; ring|].
        f_equal. apply prox_dual_pointwise; auto. symmetry. apply Hb, E. }
      rewrite Ep. reflexivity. }
    rewrite Eu. set (st := pdhg_update P _ tm tau s).
    pose proof (track_noninterf (p_m P) (p_dterm P) (sync_background (p_dterm P) (p_dterm_test P)) sigma (p_b P) b' (p_bmask P) t (p_tol P) k
      (opA (p_op P) (pd_x st)) _ _ Hb (info_incr _ _ Hf)) as H. cbv zeta in H. cbn [initialize_b_masks fst snd] in H. fold tm te in H.
    destruct (track _ _ _ _ _ _ k _ _ (incr_iterations f)) as [g brk].
    destruct (track _ _ _ _ _ _ k _ _ (incr_iterations f')) as [g' brk']. simpl in H. destruct H as [H1 H2]. subst brk'.
    simpl. auto.
Qed.

Theorem C27_fista_noninterference : forall P l r t b' it,
  p_btest P = Some t -> agree_on_training t (p_b P) b' ->
  same_outcome (fista_call P l r it) (fista_call (with_data P b') l r it).
Proof.
  intros P l r t b' it Ht Hb. unfold fista_call. simpl. rewrite Ht. cbn [initialize_b_masks].
  set (sigma := match l with None => _ | Some L => lips_sigma L 1 end).
  set (tau := match l with None => _ | Some L => lips_tau _ _ _ end).
  unfold assigned, assigned_test. cbn [with_data p_dterm p_dterm_test p_b].
  set (tm := Some (fun i => _ i * (1 - t i))) in *. set (te := Some (fun i => t i * _)) in *.
  match goal with |- same_outcome (let '(_, _) := for_range _ _ ?b1 ?s1 in _) (let '(_, _) := for_range _ _ ?b2 ?s2 in _) =>
    assert (H : fst (for_range it 0 b1 s1) = fst (for_range it 0 b2 s2) /\
                info_train_eq (snd (for_range it 0 b1 s1)) (snd (for_range it 0 b2 s2))) end.
  2:{ destruct (for_range it 0 _ _) as [a f], (for_range it 0 _ _) as [a' f']. simpl in H. destruct H as [-> H]. split; auto. }
  apply (for_range_rel (fun (r r' : fista_state * info) => fst r = fst r' /\ info_train_eq (snd r) (snd r'))).
  - split; [reflexivity|]. simpl snd. apply (init_noninterf _ _ _ _ _ _ (p_bmask P) t). exact Hb.
  - intros k [s f] [s' f'] [E Hf]. simpl in E. subst s'. simpl in Hf.
    unfold fista_body. cbn [with_data p_op p_m p_tol].
    assert (Eu : fista_update (with_data P b') (assign_data (p_dterm P) (Some b') vones) tm sigma tau r k s =
                 fista_update P (assign_data (p_dterm P) (Some (p_b P)) vones) tm sigma tau r k s).
    { unfold fista_update. cbn [with_data p_op p_regs p_lower p_upper p_xmask].
      pose proof (residual_train_eq (p_dterm P) vones (opA (p_op P) (fi_y s)) (p_bmask P) t (p_b P) b' Hb) as Er.
      cbn [initialize_b_masks fst snd] in Er. fold tm in Er. rewrite <- Er. reflexivity. }
    rewrite Eu. set (st := fista_update P _ tm sigma tau r k s).
    pose proof (track_noninterf (p_m P) (p_dterm P) (sync_background (p_dterm P) (p_dterm_test P)) vones (p_b P) b' (p_bmask P) t (p_tol P) k
      (opA (p_op P) (fi_x st)) _ _ Hb (info_incr _ _ Hf)) as H. cbv zeta in H. cbn [initialize_b_masks fst snd] in H. fold tm te in H.
    destruct (track _ _ _ _ _ _ k _ _ (incr_iterations f)) as [g brk].
    destruct (track _ _ _ _ _ _ k _ _ (incr_iterations f')) as [g' brk']. simpl in H. destruct H as [H1 H2]. subst brk'.
    simpl. auto.
Qed.

(** Non-vacuity of the hypotheses: two pixels, the second held out, different data there. *)
Example C27_example : agree_on_training (fun i => if Nat.eqb i 1 then 1 else 0)
   (fun i => if Nat.eqb i 1 then 7 else 2) (fun i => if Nat.eqb i 1 then 9 else 2).
Proof. intros i H. destruct (Nat.eqb i 1); [exfalso; apply H; reflexivity|reflexivity]. Qed.

(** * C28: two pixels that both see the single voxel; the second is held out. *)
Definition two_pixel_op : linop :=
  let A := fun x : vec => fun i : nat => x 0%nat in
  let At := fun y : vec => fun _ : nat => y 0%nat + y 1%nat in mkOp A At A At.
Definition mlem_two (b1 : R) : problem :=
  mkProblem 1 2 two_pixel_op (fun i => if Nat.eqb i 1 then b1 else 1) None None None None None
    (Some (fun i => if Nat.eqb i 1 then 1 else 0)) None 1 [] (new_dterm K_l2 None) (new_dterm K_l2 None).

(** REFUTED: the held-out pixel leaks into the MLEM reconstruction. *)
Theorem C28_mlem_leaks_refuted : exists P t b' it,
  p_btest P = Some t /\ agree_on_training t (p_b P) b' /\
  fst (mlem_call P it) 0%nat <> fst (mlem_call (with_data P b') it) 0%nat.
Proof.
  exists (mlem_two 1), (fun i => if Nat.eqb i 1 then 1 else 0), (fun i => if Nat.eqb i 1 then 3 else 1), 1%nat.
  split; [reflexivity|]. split.
  - intros i H. simpl. destruct (Nat.eqb i 1); [exfalso; apply H; reflexivity|reflexivity].
  - cbn. unfold constrain, np_clip, mul_mask, vones. cbn. unfold np_fmax, eps32.
    assert (H : / 2 ^ 23 <= 1) by (rewrite <- Rinv_1; apply Rinv_le_contravar; lra).
    rewrite !Rmax_left by (rewrite ?Rmult_1_r; exact H). intros E. field_simplify in E. lra.
Qed.

(** * C29 *)
Definition binary (m : vec) : Prop := forall i, m i = 0 \/ m i = 1.
Theorem C29_masks_partition : forall b_mask t, binary t ->
  (forall m, b_mask = Some m -> binary m) ->
  exists tr te, initialize_b_masks b_mask (Some t) = (Some tr, Some te) /\ binary tr /\ binary te /\
    forall i, tr i * te i = 0 /\ tr i + te i = match b_mask with Some m => m i | None => 1 end /\
              (te i = 1 -> t i = 1) /\ (tr i = 1 -> t i = 0).
Proof.
  intros b_mask t Ht Hm. simpl. do 2 eexists. split; [reflexivity|].
  assert (Hb : forall i, match b_mask with Some m => m | None => vones end i = 0 \/ match b_mask with Some m => m | None => vones end i = 1).
  { intros i. destruct b_mask; [apply (Hm v eq_refl)|right; reflexivity]. }
  assert (He : forall i, match b_mask with Some m => m | None => vones end i = match b_mask with Some m => m i | None => 1 end)
    by (intros; destruct b_mask; reflexivity).
  split; [|split].
  - intros i. cbv beta. destruct (Hb i) as [-> | ->], (Ht i) as [-> | ->]; lra.
  - intros i. cbv beta. destruct (Hb i) as [-> | ->], (Ht i) as [-> | ->]; lra.
  - intros i. cbv beta. rewrite <- He. destruct (Hb i) as [-> | ->], (Ht i) as [-> | ->]; repeat split; intros; lra.
Qed.

Theorem C29_no_test_mask : forall b_mask, initialize_b_masks b_mask None = (b_mask, None).
Proof. reflexivity. Qed.
