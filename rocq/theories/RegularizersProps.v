(** Theorems C19-C23 and C96-C98: regularisers and constraints. *)
From Verif Require Import Sums Convex Arrays DataTermsSpec DataTermsModel DataTermsProofs SolversModel RegularizersModel
  OperatorsModel OperatorsProps OperatorsLayoutProps RegularizersMore.

(** * C19 *)
Lemma rclass_eqb_eq a b : rclass_eqb a b = true <-> a = b.
Proof.
  split.
  - destruct a, b; simpl; try discriminate; intros H; try reflexivity; apply Nat.eqb_eq in H; subst; reflexivity.
  - intros ->. destruct b; simpl; try reflexivity; apply Nat.eqb_refl.
Qed.
Lemma loc_eqb_eq a b : loc_eqb a b = true <-> a = b.
Proof.
  split.
  - destruct a, b; simpl; try discriminate; intros H; [apply rclass_eqb_eq in H|apply Nat.eqb_eq in H]; subst; reflexivity.
  - intros ->. destruct b; simpl; [apply rclass_eqb_eq; reflexivity|apply Nat.eqb_refl].
Qed.
Lemma heap_same h l t : heap_set h l t l = t.
Proof. unfold heap_set. replace (loc_eqb l l) with true; [reflexivity|]. symmetry. apply loc_eqb_eq. reflexivity. Qed.
Lemma heap_other h l l' t : l <> l' -> heap_set h l t l' = h l'.
Proof. intros H. unfold heap_set. destruct (loc_eqb l l') eqn:E; [apply loc_eqb_eq in E; contradiction|reflexivity]. Qed.

(** what can be said about the shared instance of class c *)
Definition shared_ok (g : nat -> list nat) (c : rclass) (t : dterm) : Prop :=
  dt_kind t = default_kind g c /\ (is_limit c = false -> dt_data t = None).
Definition rinv (g : nat -> list nat) (s : rstate) : Prop :=
  (forall c, shared_ok g c (s_heap s (L_default c))) /\
  (forall r o, nth_error (s_objs s) r = Some o ->
     (o_loc o = L_default (o_class o) \/ o_loc o = L_own r) /\
     (o_init o = true -> o_loc o = L_default (o_class o) -> forall nd, o_class o = RC_smooth nd ->
        dt_sigma1 (s_heap s (o_loc o)) = fun _ => 1 / (1 + 1 / 2))).

Lemma nth_error_set_same {A} r (v a : A) l : nth_error l r = Some a -> nth_error (set_nth r v l) r = Some v.
Proof. revert r. induction l as [|h t IH]; intros [|r] H; simpl in *; try discriminate; auto. Qed.
Lemma nth_error_set_other {A} r q (v : A) l : r <> q -> nth_error (set_nth r v l) q = nth_error l q.
Proof. revert r q. induction l as [|h t IH]; intros [|r] [|q] H; simpl; try reflexivity; try lia. apply IH. lia. Qed.

Lemma rinv_init g : rinv g (rs_init g).
Proof. split; [intros c; split; [reflexivity|reflexivity]|]. intros [|r] o H; discriminate. Qed.
Lemma rinv_step g s e : rinv g s -> rinv g (rstep s e).
Proof.
  intros [Hc Ho]. destruct e as [c norm limit weight|r sigma]; simpl.
  - split.
    + intros c'. destruct norm as [k|]; [|apply Hc]. simpl. rewrite heap_other by discriminate. apply Hc.
    + intros q o Hq. simpl in Hq. destruct (Nat.lt_ge_cases q (length (s_objs s))) as [Hlt|Hge].
      * rewrite nth_error_app1 in Hq by exact Hlt. destruct (Ho q o Hq) as [H1 H2]. split; [exact H1|]. intros Hi Hd nd Hnd.
        destruct norm as [k|]; simpl; [|apply (H2 Hi Hd nd Hnd)]. rewrite heap_other by (rewrite Hd; discriminate). apply (H2 Hi Hd nd Hnd).
      * rewrite nth_error_app2 in Hq by exact Hge. destruct (q - length (s_objs s))%nat eqn:E; simpl in Hq; [|destruct n; discriminate].
        injection Hq as <-. simpl. split; [|discriminate]. destruct norm; [right; f_equal; lia|left; reflexivity].
  - destruct (nth_error (s_objs s) r) as [o|] eqn:Er; [|split; assumption]. destruct (Ho r o Er) as [Hl Hs]. split.
    + intros c'. cbn [s_heap]. destruct (Hc c') as [H1 H2].
      destruct (loc_eqb (o_loc o) (L_default c')) eqn:E; [|unfold heap_set; rewrite E; split; assumption].
      apply loc_eqb_eq in E. rewrite E, heap_same. split; [exact H1|]. intros Hlim. simpl. unfold init_data.
      destruct Hl as [Hl|Hl]; rewrite Hl in E; [|discriminate]. injection E as ->. rewrite Hlim. reflexivity.
    + intros q o' Hq. cbn [s_heap s_objs] in *. destruct (Nat.eq_dec r q) as [->|Hne].
      * rewrite (nth_error_set_same _ _ _ _ Er) in Hq. injection Hq as <-. simpl. split; [exact Hl|].
        intros _ Hd nd Hnd. rewrite heap_same. simpl. rewrite Hnd. rewrite Hd. destruct (Hc (o_class o)) as [H1 _]. rewrite H1, Hnd. reflexivity.
      * rewrite nth_error_set_other in Hq by exact Hne. destruct (Ho q o' Hq) as [H1 H2]. split; [exact H1|].
        intros Hi Hd nd Hnd. destruct (loc_eqb (o_loc o) (o_loc o')) eqn:E; [|unfold heap_set; rewrite E; apply (H2 Hi Hd nd Hnd)].
        apply loc_eqb_eq in E. rewrite E, heap_same.
        assert (o_class o = o_class o') by (destruct Hl as [Hl|Hl]; rewrite Hl, Hd in E; [injection E as E; exact E|discriminate]).
        rewrite H, Hnd. rewrite Hd. simpl. destruct (Hc (o_class o')) as [Hk _]. rewrite Hk, Hnd. reflexivity.
Qed.
Lemma rinv_run g h : forall s, rinv g s -> rinv g (rrun s h).
Proof. induction h as [|e h IH]; intros s H; [exact H|]. apply (IH (rstep s e)). apply rinv_step, H. Qed.

Lemma base_prox_shared g c t t' w d : is_limit c = false -> shared_ok g c t -> shared_ok g c t' ->
  (forall nd, c = RC_smooth nd -> dt_sigma1 t = dt_sigma1 t') ->
  base_prox_dual t w d = base_prox_dual t' w d.
Proof.
  intros Hl [K D] [K' D'] Hs. specialize (D Hl). specialize (D' Hl).
  unfold base_prox_dual, proximal_dual, sub_sigma_data. rewrite K, K', D, D'.
  destruct c; simpl in *; try reflexivity; try discriminate. rewrite (Hs nd eq_refl). reflexivity.
Qed.

(** the object is immune: it is not a limit constraint, or it was given its own norm *)
Definition immune (o : robj) : Prop := is_limit (o_class o) = false \/ exists n, o_loc o = L_own n.

Lemma obs_step g s e r o dual : rinv g s -> nth_error (s_objs s) r = Some o -> o_init o = true -> immune o ->
  (forall sigma, e <> E_init r sigma) ->
  obs_prox_dual (rstep s e) r dual = obs_prox_dual s r dual /\ nth_error (s_objs (rstep s e)) r = Some o.
Proof.
  intros Hinv Hr Hi Him He. pose proof (rinv_step g s e Hinv) as Hinv'.
  assert (Hr' : nth_error (s_objs (rstep s e)) r = Some o).
  { destruct e as [c norm limit weight|q sigma]; simpl.
    - rewrite nth_error_app1; [exact Hr|]. apply nth_error_Some. congruence.
    - destruct (nth_error (s_objs s) q) as [o'|] eqn:Eq; [|exact Hr]. cbn [s_objs].
      rewrite nth_error_set_other; [exact Hr|]. intros ->. exact (He sigma eq_refl). }
  split; [|exact Hr'].
  destruct Hinv as [Hc Ho]. destruct (Ho r o Hr) as [Hl Hs]. destruct Hinv' as [Hc' Ho']. destruct (Ho' r o Hr') as [_ Hs'].
  unfold obs_prox_dual. rewrite Hr, Hr'. cbn [option_map]. f_equal.
  destruct Hl as [Hl|Hl].
  - (* shared norm *)
    destruct Him as [Him|[n Him]]; [|congruence].
    assert (E : base_prox_dual (s_heap (rstep s e) (o_loc o)) (o_weight o) dual = base_prox_dual (s_heap s (o_loc o)) (o_weight o) dual).
    { apply (base_prox_shared g (o_class o)); [exact Him|rewrite Hl; apply Hc'|rewrite Hl; apply Hc|].
      intros nd Hnd. rewrite (Hs Hi Hl nd Hnd), (Hs' Hi Hl nd Hnd). reflexivity. }
    destruct (o_class o); simpl in *; try exact E; discriminate.
  - (* own norm: the heap cell did not change *)
    assert (E : s_heap (rstep s e) (o_loc o) = s_heap s (o_loc o)).
    { rewrite Hl. destruct e as [c norm limit weight|q sigma]; simpl.
      - destruct norm as [k|]; [|reflexivity]. rewrite heap_other; [reflexivity|]. intros [=E].
        assert (r < length (s_objs s))%nat by (apply nth_error_Some; congruence). lia.
      - destruct (nth_error (s_objs s) q) as [o'|] eqn:Eq; [|reflexivity]. cbn [s_heap]. apply heap_other.
        destruct (Ho q o' Eq) as [[Hq|Hq] _]; rewrite Hq; [discriminate|]. intros [=E]. subst q. exact (He sigma eq_refl). }
    rewrite E. reflexivity.
Qed.

(** Whatever is constructed or initialised afterwards, an initialised regulariser keeps its behaviour -- provided it is
    not a limit constraint using the default norm. *)
Theorem C19_noninterference : forall g h1 h2 r o dual,
  let s := rrun (rs_init g) h1 in
  nth_error (s_objs s) r = Some o -> o_init o = true -> immune o ->
  (forall sigma, ~ In (E_init r sigma) h2) ->
  obs_prox_dual (rrun s h2) r dual = obs_prox_dual s r dual.
Proof.
  intros g h1 h2 r o dual s Hr Hi Him Hn. pose proof (rinv_run g h1 _ (rinv_init g)) as Hinv. fold s in Hinv.
  clearbody s. revert s Hr Hinv. induction h2 as [|e h2 IH]; intros s Hr Hinv; [reflexivity|].
  unfold rrun in *. cbn [fold_left].
  destruct (obs_step g s e r o dual Hinv Hr Hi Him) as [E Hr'].
  { intros sigma ->. apply (Hn sigma). left. reflexivity. }
  rewrite IH; [exact E| |exact Hr'|apply rinv_step, Hinv]. intros sigma Hin. apply (Hn sigma). right. exact Hin.
Qed.

(** REFUTED for the limit constraints: initialising a second one changes the first. *)
Theorem C19_limit_constraints_refuted : exists g h1 h2 r o dual i,
  let s := rrun (rs_init g) h1 in
  nth_error (s_objs s) r = Some o /\ o_init o = true /\ (forall sigma, ~ In (E_init r sigma) h2) /\
  option_map (fun v => v i) (obs_prox_dual (rrun s h2) r dual) <> option_map (fun v => v i) (obs_prox_dual s r dual).
Proof.
  exists (fun _ => []), [E_new RC_low None vzeros vones; E_init 0 vones], [E_new RC_low None (fun _ => 5) vones; E_init 1 vones],
    0%nat, (mkObj RC_low (L_default RC_low) vzeros vones true), vzeros, 0%nat.
  cbn -[assign_data new_dterm low_prox_dual]. repeat split; try reflexivity.
  - intros sigma [H|[H|[]]]; discriminate.
  - intros H. injection H as H. revert H. unfold low_prox_dual, clip_positive, proximal_dual, vzeros. simpl.
    unfold vones, sub_sigma_data. simpl. destruct (Rlt_dec 0 0); lra.
Qed.
(** ... and for regularisers that are used before their own initialisation (no error is raised). *)
Theorem C19_uninitialised_refuted : exists g h1 h2 r o dual i,
  let s := rrun (rs_init g) h1 in
  nth_error (s_objs s) r = Some o /\ o_class o = RC_smooth 2 /\ (forall sigma, ~ In (E_init r sigma) h2) /\
  option_map (fun v => v i) (obs_prox_dual (rrun s h2) r dual) <> option_map (fun v => v i) (obs_prox_dual s r dual).
Proof.
  exists (fun _ => []), [E_new (RC_smooth 2) None vzeros vones], [E_new (RC_smooth 2) None vzeros vones; E_init 1 vones],
    0%nat, (mkObj (RC_smooth 2) (L_default (RC_smooth 2)) vzeros vones false), vones, 0%nat.
  cbn -[assign_data new_dterm base_prox_dual]. repeat split; try reflexivity.
  - intros sigma [H|[H|[]]]; discriminate.
  - intros H. injection H as H. revert H. unfold base_prox_dual, proximal_dual, vones, sub_sigma_data. simpl. lra.
Qed.
(** non-vacuity of C19_noninterference: two smoothness regularisers sharing one l2 object *)
Example C19_example : let s := rrun (rs_init (fun _ => [])) [E_new (RC_smooth 2) None vzeros vones; E_init 0 vones] in
  exists o, nth_error (s_objs s) 0 = Some o /\ o_init o = true /\ immune o /\ o_loc o = L_default (RC_smooth 2).
Proof. eexists. repeat split; try reflexivity. left. reflexivity. Qed.

(** * C20 *)
(** [p] is the closest point to x of the half-line *)
Definition is_projection (S : R -> Prop) (x p : R) : Prop := S p /\ forall q, S q -> q <> p -> (p - x) ^ 2 < (q - x) ^ 2.
Theorem C20_limit_projection : forall limit mask x tau i,
  is_projection (fun q => limit i <= q) (x i) (r_prox_primal (Constraint_LowerLimit limit mask) x tau i) /\
  is_projection (fun q => q <= limit i) (x i) (r_prox_primal (Constraint_UpperLimit limit mask) x tau i).
Proof.
  intros limit mask x tau i. simpl. unfold low_prox_primal, up_prox_primal, is_projection. split; split.
  - apply Rmax_r.
  - intros q Hq Hne. unfold Rmax in *. destruct (Rle_dec (x i) (limit i)); nra.
  - apply Rmin_r.
  - intros q Hq Hne. unfold Rmin in *. destruct (Rle_dec (x i) (limit i)); nra.
Qed.

(** * C21 *)
Lemma low_dual_eq limit mask x i : let c := Constraint_LowerLimit limit mask in
  r_prox_dual c (r_update_dual c vzeros x) i =
  ((if Rlt_dec 0 (0 + (x i - limit i)) then 0 else 0 + (x i - limit i)) - 1 * limit i) * (1 / (1 + 1)).
Proof. reflexivity. Qed.
Lemma up_dual_eq limit mask x i : let c := Constraint_UpperLimit limit mask in
  r_prox_dual c (r_update_dual c vzeros x) i =
  ((if Rlt_dec (0 + (x i - limit i)) 0 then 0 else 0 + (x i - limit i)) - 1 * limit i) * (1 / (1 + 1)).
Proof. reflexivity. Qed.
(** for a zero limit a feasible point with zero dual is stationary ... *)
Theorem C21_zero_limit_stationary : forall mask x i,
  (0 <= x i -> let c := Constraint_LowerLimit vzeros mask in r_prox_dual c (r_update_dual c vzeros x) i = 0) /\
  (x i <= 0 -> let c := Constraint_UpperLimit vzeros mask in r_prox_dual c (r_update_dual c vzeros x) i = 0).
Proof.
  intros mask x i. split; intros H c; unfold c; [rewrite low_dual_eq|rewrite up_dual_eq]; unfold vzeros; destruct (Rlt_dec _ _); lra.
Qed.
(** ... and an infeasible one is pushed towards the feasible side: *)
Theorem C21_zero_limit_pushes_back : forall mask x i,
  (x i < 0 -> let c := Constraint_LowerLimit vzeros mask in r_prox_dual c (r_update_dual c vzeros x) i = x i / 2) /\
  (0 < x i -> let c := Constraint_UpperLimit vzeros mask in r_prox_dual c (r_update_dual c vzeros x) i = x i / 2).
Proof.
  intros mask x i. split; intros H c; unfold c; [rewrite low_dual_eq|rewrite up_dual_eq]; unfold vzeros; destruct (Rlt_dec _ _); lra.
Qed.
(** for any other limit: REFUTED; the dual of every feasible point becomes -limit/2, a push away from zero. *)
Theorem C21_limit_refuted : forall limit mask x i, limit i <> 0 ->
  (limit i <= x i -> let c := Constraint_LowerLimit limit mask in
     r_prox_dual c (r_update_dual c vzeros x) i = - limit i / 2 /\ r_prox_dual c (r_update_dual c vzeros x) i <> 0) /\
  (x i <= limit i -> let c := Constraint_UpperLimit limit mask in
     r_prox_dual c (r_update_dual c vzeros x) i = - limit i / 2 /\ r_prox_dual c (r_update_dual c vzeros x) i <> 0).
Proof.
  intros limit mask x i Hl. split; intros H c; unfold c; [rewrite low_dual_eq|rewrite up_dual_eq]; unfold vzeros; destruct (Rlt_dec _ _); split; lra.
Qed.

(** * C22 *)
Definition unit_arr (j : list nat) : arr := fun l => if list_eq_dec Nat.eq_dec l j then 1 else 0.
Lemma unit_nonneg j l : 0 <= unit_arr j l.
Proof. unfold unit_arr. destruct (list_eq_dec _ _ _); lra. Qed.
Lemma unit_sym j l : unit_arr j l = unit_arr l j.
Proof. unfold unit_arr. destruct (list_eq_dec Nat.eq_dec l j) as [E|E], (list_eq_dec Nat.eq_dec j l) as [E'|E']; try reflexivity; congruence. Qed.
Lemma unit_cons a j b l : unit_arr (a :: j) (b :: l) = delta b a * unit_arr j l.
Proof.
  unfold unit_arr, delta. destruct (Nat.eqb_spec b a), (list_eq_dec Nat.eq_dec l j), (list_eq_dec Nat.eq_dec (b :: l) (a :: j)); try lra; congruence.
Qed.
Lemma rsum_delta_le n a : rsum n (fun i => delta i a) <= 1.
Proof.
  destruct (Nat.lt_ge_cases a n) as [H|H].
  - rewrite (rsum_ext n _ (fun i => delta i a * 1)) by (intros; ring). rewrite (rsum_delta n a (fun _ => 1)) by exact H. lra.
  - rewrite rsum_zero; [lra|]. intros i Hi. apply delta_neq. lia.
Qed.
Lemma bsum_unit s : forall j, bsum s (unit_arr j) <= 1.
Proof.
  induction s as [|n s IH]; intros j; simpl.
  - unfold unit_arr. destruct (list_eq_dec _ _ _); lra.
  - destruct j as [|a j].
    + rewrite rsum_zero; [lra|]. intros i Hi. transitivity (bsum s (fun _ => 0)); [|apply bsum_0]. apply bsum_ext. intros l Hl.
      unfold unit_arr. destruct (list_eq_dec _ _ _); [discriminate|reflexivity].
    + rewrite (rsum_ext n _ (fun i => delta i a * bsum s (unit_arr j))).
      * rewrite (rsum_scal_r n (bsum s (unit_arr j)) (fun i => delta i a)).
        pose proof (rsum_delta_le n a). pose proof (IH j). pose proof (bsum_nonneg s (unit_arr j) (fun l _ => unit_nonneg j l)).
        pose proof (rsum_nonneg n (fun i => delta i a) ltac:(intros; unfold delta; destruct (Nat.eqb _ _); lra)). nra.
      * intros i Hi. rewrite <- bsum_scal. apply bsum_ext. intros l Hl. apply unit_cons.
Qed.
Lemma bsum_abs s f : Rabs (bsum s f) <= bsum s (fun l => Rabs (f l)).
Proof.
  revert f. induction s as [|n s IH]; intros f; simpl; [lra|].
  eapply Rle_trans; [apply rsum_abs|]. apply rsum_le. intros i Hi. apply IH.
Qed.

(** the entry of the gradient / Laplacian matrix: output position i, input position j *)
Definition grad_entry (s : list nat) (axes : list Z) (mode : pad_mode) (i j : list nat) : R := gradient s axes mode (unit_arr j) i.
Definition lap_entry (s : list nat) (axes : list Z) (mode : pad_mode) (i j : list nat) : R := laplacian s axes mode (unit_arr j) i.

Lemma read_row s o l ax : bsum s (fun j => Rabs (read o (fun i => unit_arr j (set_nth ax i l)))) <= 1.
Proof.
  destruct o as [i|]; simpl.
  - rewrite (bsum_ext s _ (unit_arr (set_nth ax i l))); [apply bsum_unit|]. intros j _. rewrite unit_sym. apply Rabs_right, Rle_ge, unit_nonneg.
  - rewrite (bsum_ext s _ (fun _ => 0)) by (intros; apply Rabs_R0). rewrite bsum_0. lra.
Qed.
Lemma grad_row_along s ax mode n l : bsum s (fun j => Rabs (along ax (grad1 mode n) (unit_arr j) l)) <= 2.
Proof.
  set (o1 := pad_index mode n (Z.of_nat (S (nth ax l 0%nat)) - Z.of_nat 0)). set (o0 := pad_index mode n (Z.of_nat (nth ax l 0%nat) - Z.of_nat 0)).
  eapply Rle_trans; [apply (bsum_le s _ (fun j => Rabs (read o1 (fun i => unit_arr j (set_nth ax i l))) + Rabs (read o0 (fun i => unit_arr j (set_nth ax i l)))))|].
  - intros j _. unfold along, grad1, np_diff, np_pad. fold o1 o0. eapply Rle_trans; [apply Rabs_triang|]. rewrite Rabs_Ropp. lra.
  - rewrite bsum_plus. pose proof (read_row s o1 l ax). pose proof (read_row s o0 l ax). lra.
Qed.

(** one line: columns *)
Lemma rsum_shift_le m f : rsum m (fun i => f (S i)) = rsum (S m) f - f 0%nat.
Proof. rewrite rsum_S_l. ring. Qed.
Lemma grad1_cols mode n a : lap_mode mode -> (0 < n)%nat -> rsum n (fun i => Rabs (grad1 mode n (fun k => delta k a) i)) <= 2.
Proof.
  intros Hm Hn. destruct n as [|m]; [lia|]. cbn [rsum]. rewrite grad1_last.
  assert (H1 : rsum m (fun i => Rabs (grad1 mode (S m) (fun k => delta k a) i)) <= rsum m (fun i => delta (S i) a) + rsum m (fun i => delta i a)).
  { rewrite <- rsum_plus. apply rsum_le. intros i Hi. rewrite grad1_in by exact Hi. unfold delta. destruct (Nat.eqb (S i) a), (Nat.eqb i a); unfold Rabs; destruct (Rcase_abs _); lra. }
  rewrite (rsum_shift_le m (fun i => delta i a)) in H1. pose proof (rsum_delta_le (S m) a) as H2. pose proof H2 as H3. cbn [rsum] in H3, H1.
  assert (H4 : Rabs (after mode (S m) (fun k => delta k a) - delta m a) <= delta 0 a + delta m a).
  { assert (0 <= delta 0 a) by (unfold delta; destruct (Nat.eqb 0 a); lra). assert (0 <= delta m a) by (unfold delta; destruct (Nat.eqb m a); lra).
    destruct Hm as [-> | [-> | [-> | ->]]]; rewrite ?after_edge, ?after_const, ?after_wrap, ?after_symm; unfold Rabs; destruct (Rcase_abs _); lra. }
  lra.
Qed.
Lemma grad1_zero mode n i : grad1 mode n (fun _ => 0) i = 0.
Proof. unfold grad1, np_diff, np_pad. destruct (pad_index _ _ _), (pad_index _ _ _); simpl; ring. Qed.
Lemma unit_ins (s : list nat) (ax : nat) (j r : list nat) (k : nat) : (ax < length s)%nat -> length r = length (del ax s) -> length j = length s ->
  unit_arr j (ins ax k r) = delta k (nth ax j 0%nat) * unit_arr (del ax j) r.
Proof.
  revert ax j r. induction s as [|n s IH]; intros ax j r Hax Hr Hj; [simpl in Hax; lia|]. destruct j as [|b j]; [discriminate|].
  destruct ax as [|ax]; [simpl; apply unit_cons|]. simpl in Hr. destruct r as [|c r]; [discriminate|].
  cbn [ins nth del]. rewrite !unit_cons. rewrite (IH ax j r); [ring|simpl in Hax; lia|injection Hr as Hr; exact Hr|injection Hj as Hj; exact Hj].
Qed.
Lemma along_cols s ax op C j : (ax < length s)%nat -> inb s j -> 0 <= C ->
  (forall a, rsum (nth ax s 0%nat) (fun i => Rabs (op (fun k => delta k a) i)) <= C) -> (forall i, op (fun _ => 0) i = 0) ->
  bsum s (fun l => Rabs (along ax op (unit_arr j) l)) <= C.
Proof.
  intros Hax Hj HC Hcol H0. rewrite (bsum_axis s ax) by exact Hax. pose proof (inb_length s j Hj) as Lj.
  eapply Rle_trans; [apply (bsum_le (del ax s) _ (fun r => C * unit_arr (del ax j) r))|].
  - intros r Hr. pose proof (inb_length _ _ Hr) as Lr.
    rewrite (rsum_ext _ _ (fun i => Rabs (op (fun k => delta k (nth ax j 0%nat) * unit_arr (del ax j) r) i))).
    + unfold unit_arr. destruct (list_eq_dec Nat.eq_dec r (del ax j)).
      * rewrite Rmult_1_r. eapply Rle_trans; [|apply (Hcol (nth ax j 0%nat))]. apply rsum_le. intros i Hi.
        replace (fun k => delta k (nth ax j 0%nat) * 1) with (fun k => delta k (nth ax j 0%nat)) by (apply functional_extensionality; intros; ring). lra.
      * rewrite Rmult_0_r. apply Req_le. apply rsum_zero. intros i Hi.
        replace (fun k => delta k (nth ax j 0%nat) * 0) with (fun _ : nat => 0) by (apply functional_extensionality; intros; ring). rewrite H0. apply Rabs_R0.
    + intros i Hi. rewrite along_ins by (rewrite Lr, del_length by exact Hax; lia). do 2 f_equal. apply functional_extensionality. intros k. apply (unit_ins s); assumption.
  - rewrite bsum_scal. pose proof (bsum_unit (del ax s) (del ax j)). nra.
Qed.
Lemma inb_nth_pos s ax j : inb s j -> (ax < length s)%nat -> (0 < nth ax s 0)%nat.
Proof. intros H1 H2. pose proof (inb_nth s ax j H1 H2). lia. Qed.
Lemma axis_in (s : list nat) axes ii : valid_axes (length s) axes -> (ii < length axes)%nat -> (norm_axis (length s) (nth ii axes 0%Z) < length s)%nat.
Proof. intros H Hi. apply norm_axis_lt; assumption. Qed.
Lemma rsum_le_const n f c : (forall i, (i < n)%nat -> f i <= c) -> rsum n f <= INR n * c.
Proof. intros H. rewrite <- rsum_const. apply rsum_le. exact H. Qed.

(** Gradient: 1 / sigma bounds every absolute row sum (any padding), tau every absolute column sum. *)
Theorem C22_gradient_row_sums : forall s axes mode i,
  bsum s (fun j => Rabs (grad_entry s axes mode i j)) <= / grad_sigma.
Proof.
  intros s axes mode [|ii l]; unfold grad_entry, gradient, grad_sigma; replace (/ (1 / 2)) with 2 by field.
  - rewrite (bsum_ext s _ (fun _ => 0)) by (intros; apply Rabs_R0). rewrite bsum_0. lra.
  - apply grad_row_along.
Qed.
Theorem C22_gradient_column_sums : forall s axes mode j, lap_mode mode -> valid_axes (length s) axes -> inb s j ->
  bsum (length axes :: s) (fun i => Rabs (grad_entry s axes mode i j)) <= grad_tau (length axes).
Proof.
  intros s axes mode j Hm Hax Hj. cbn [bsum]. unfold grad_tau. rewrite (Rmult_comm 2). apply rsum_le_const. intros ii Hii.
  unfold grad_entry, gradient. pose proof (axis_in s axes ii Hax Hii) as Ha.
  apply along_cols; auto; [lra| |intros; apply grad1_zero].
  intros a. apply grad1_cols; [exact Hm|]. apply (inb_nth_pos s _ j Hj Ha).
Qed.

(** and the resulting norm bound: sigma |grad x|^2 <= tau |x|^2 *)
Lemma grad1_sq mode n x : lap_mode mode -> (0 < n)%nat -> rsum n (fun i => grad1 mode n x i ^ 2) <= 4 * rsum n (fun i => x i ^ 2).
Proof.
  intros Hm Hn. destruct n as [|m]; [lia|]. cbn [rsum]. rewrite grad1_last.
  assert (H1 : rsum m (fun i => grad1 mode (S m) x i ^ 2) <= 2 * rsum m (fun i => x (S i) ^ 2) + 2 * rsum m (fun i => x i ^ 2)).
  { rewrite <- !rsum_scal, <- rsum_plus. apply rsum_le. intros i Hi. rewrite grad1_in by exact Hi. pose proof (pow2_ge_0 (x (S i) + x i)). nra. }
  rewrite (rsum_shift_le m (fun i => x i ^ 2)) in H1. cbn [rsum] in H1.
  assert (H4 : (after mode (S m) x - x m) ^ 2 <= 2 * x 0%nat ^ 2 + 2 * x m ^ 2).
  { pose proof (pow2_ge_0 (x 0%nat + x m)). pose proof (pow2_ge_0 (x 0%nat)). pose proof (pow2_ge_0 (x m)).
    destruct Hm as [-> | [-> | [-> | ->]]]; rewrite ?after_edge, ?after_const, ?after_wrap, ?after_symm; nra. }
  lra.
Qed.
Lemma along_sq s ax op C x : (ax < length s)%nat ->
  (forall u, rsum (nth ax s 0%nat) (fun i => op u i ^ 2) <= C * rsum (nth ax s 0%nat) (fun i => u i ^ 2)) ->
  bsum s (fun l => along ax op x l ^ 2) <= C * bsum s (fun l => x l ^ 2).
Proof.
  intros Hax H. rewrite !(bsum_axis s ax) by exact Hax. rewrite <- bsum_scal. apply bsum_le. intros r Hr.
  pose proof (inb_length _ _ Hr) as Lr. rewrite del_length in Lr by exact Hax.
  rewrite (rsum_ext _ _ (fun i => op (fun k => x (ins ax k r)) i ^ 2)) by (intros; rewrite along_ins by lia; reflexivity).
  apply (H (fun k => x (ins ax k r))).
Qed.
Theorem C22_gradient_norm : forall s axes mode x, lap_mode mode -> valid_axes (length s) axes -> (forall n, In n s -> (0 < n)%nat) ->
  grad_sigma * adot (length axes :: s) (gradient s axes mode x) (gradient s axes mode x) <= grad_tau (length axes) * adot s x x.
Proof.
  intros s axes mode x Hm Hax Hpos. unfold adot. cbn [bsum]. unfold grad_sigma, grad_tau.
  assert (E : rsum (length axes) (fun ii => bsum s (fun l => gradient s axes mode x (ii :: l) * gradient s axes mode x (ii :: l)))
          <= INR (length axes) * (4 * bsum s (fun l => x l * x l))).
  { apply rsum_le_const. intros ii Hii. pose proof (axis_in s axes ii Hax Hii) as Ha.
    rewrite (bsum_ext s (fun l => x l * x l) (fun l => x l ^ 2)) by (intros; ring).
    rewrite (bsum_ext s _ (fun l => along (norm_axis (length s) (nth ii axes 0%Z)) (grad1 mode (axis_len s (nth ii axes 0%Z))) x l ^ 2)) by (intros; unfold gradient; ring).
    apply along_sq; [exact Ha|]. intros u. apply grad1_sq; [exact Hm|]. apply Hpos, nth_In, Ha. }
  lra.
Qed.
(** REFUTED for 'reflect' padding, which the constructor accepts. *)
Theorem C22_gradient_reflect_refuted :
  bsum [1%nat; 3%nat] (fun i => Rabs (grad_entry [3%nat] [0%Z] PadReflect i [1%nat])) > grad_tau 1.
Proof.
  unfold grad_tau. cbv -[Rplus Rmult Rminus Ropp IZR INR Rabs Rgt].
  simpl INR. unfold Rabs. repeat destruct (Rcase_abs _); lra.
Qed.
Example C22_example : valid_axes 2 [-2; -1]%Z /\ lap_mode PadEdge /\ inb [4%nat; 4%nat] [1%nat; 3%nat].
Proof. split; [|split; [left; reflexivity|repeat constructor; lia]]. repeat constructor; lia. Qed.

(** Laplacian, one axis *)
Lemma lap1_in mode m x i : lap_mode mode -> (i < S m)%nat ->
  lap1 mode (S m) x i = (match i with O => before mode (S m) x | S k => x k end) - 2 * x i + (if Nat.eqb i m then after mode (S m) x else x (S i)).
Proof.
  intros Hm Hi. unfold lap1, np_diff.
  assert (E1 : np_pad mode (S m) 1 x (S i) = x i).
  { unfold np_pad. replace (Z.of_nat (S i) - Z.of_nat 1)%Z with (Z.of_nat i) by lia. rewrite pad_index_inside by exact Hi. reflexivity. }
  assert (E0 : np_pad mode (S m) 1 x i = match i with O => before mode (S m) x | S k => x k end).
  { destruct i as [|k].
    - unfold np_pad, before. reflexivity.
    - unfold np_pad. replace (Z.of_nat (S k) - Z.of_nat 1)%Z with (Z.of_nat k) by lia. rewrite pad_index_inside by lia. reflexivity. }
  assert (E2 : np_pad mode (S m) 1 x (S (S i)) = if Nat.eqb i m then after mode (S m) x else x (S i)).
  { unfold np_pad. replace (Z.of_nat (S (S i)) - Z.of_nat 1)%Z with (Z.of_nat (S i)) by lia. destruct (Nat.eqb_spec i m) as [->|Hne].
    - unfold after. reflexivity.
    - rewrite pad_index_inside by lia. reflexivity. }
  rewrite E0, E1, E2. ring.
Qed.
(** sums of a function of the left / right neighbours along a line *)
Definition left_of (mode : pad_mode) (m : nat) (x : vec) (i : nat) : R := match i with O => before mode (S m) x | S k => x k end.
Definition right_of (mode : pad_mode) (m : nat) (x : vec) (i : nat) : R := if Nat.eqb i m then after mode (S m) x else x (S i).
Lemma sum_left mode m x (f : R -> R) : rsum (S m) (fun i => f (left_of mode m x i)) = f (before mode (S m) x) + (rsum (S m) (fun i => f (x i)) - f (x m)).
Proof. rewrite (rsum_S_l m (fun i => f (left_of mode m x i))). unfold left_of. cbn [rsum]. ring. Qed.
Lemma sum_right mode m x (f : R -> R) : rsum (S m) (fun i => f (right_of mode m x i)) = f (after mode (S m) x) + (rsum (S m) (fun i => f (x i)) - f (x 0%nat)).
Proof.
  rewrite (rsum_S_l m (fun i => f (x i))). cbn [rsum]. unfold right_of at 2. rewrite Nat.eqb_refl.
  rewrite (rsum_ext m _ (fun i => f (x (S i)))); [ring|]. intros i Hi. unfold right_of. destruct (Nat.eqb_spec i m); [lia|reflexivity].
Qed.
Lemma border_le mode m x (f : R -> R) : lap_mode mode -> (forall v, 0 <= f v) -> f 0 = 0 ->
  f (before mode (S m) x) + f (after mode (S m) x) <= f (x 0%nat) + f (x m).
Proof.
  intros Hm H H0. pose proof (H (x 0%nat)). pose proof (H (x m)).
  destruct Hm as [-> | [-> | [-> | ->]]]; rewrite ?after_edge, ?before_edge, ?after_const, ?before_const, ?after_wrap, ?before_wrap, ?after_symm, ?before_symm; lra.
Qed.
Lemma lap1_sq mode n x : lap_mode mode -> (0 < n)%nat -> rsum n (fun i => lap1 mode n x i ^ 2) <= 16 * rsum n (fun i => x i ^ 2).
Proof.
  intros Hm Hn. destruct n as [|m]; [lia|].
  eapply Rle_trans; [apply (rsum_le (S m) _ (fun i => 4 * left_of mode m x i ^ 2 + (8 * x i ^ 2 + 4 * right_of mode m x i ^ 2)))|].
  - intros i Hi. rewrite lap1_in by assumption. fold (left_of mode m x i) (right_of mode m x i).
    set (b := left_of mode m x i). set (a := right_of mode m x i).
    pose proof (pow2_ge_0 (b + x i)). pose proof (pow2_ge_0 (b - a)). pose proof (pow2_ge_0 (a + x i)). nra.
  - rewrite !rsum_plus, !rsum_scal. rewrite (sum_left mode m x (fun v => v ^ 2)), (sum_right mode m x (fun v => v ^ 2)).
    pose proof (border_le mode m x (fun v => v ^ 2) Hm (fun v => pow2_ge_0 v) ltac:(simpl; ring)) as Hb. cbv beta in Hb. lra.
Qed.
Lemma lap1_cols mode n a : lap_mode mode -> (0 < n)%nat -> rsum n (fun i => Rabs (lap1 mode n (fun k => delta k a) i)) <= 4.
Proof.
  intros Hm Hn. destruct n as [|m]; [lia|]. set (x := fun k => delta k a).
  eapply Rle_trans; [apply (rsum_le (S m) _ (fun i => Rabs (left_of mode m x i) + (2 * Rabs (x i) + Rabs (right_of mode m x i))))|].
  - intros i Hi. rewrite lap1_in by assumption. fold (left_of mode m x i) (right_of mode m x i).
    set (b := left_of mode m x i). set (c := right_of mode m x i). unfold Rabs. repeat destruct (Rcase_abs _); lra.
  - rewrite !rsum_plus, !rsum_scal. rewrite (sum_left mode m x Rabs), (sum_right mode m x Rabs).
    pose proof (border_le mode m x Rabs Hm Rabs_pos Rabs_R0) as Hb.
    assert (E : rsum (S m) (fun i => Rabs (x i)) <= 1).
    { rewrite (rsum_ext (S m) _ (fun i => delta i a)); [apply rsum_delta_le|]. intros i _. apply Rabs_right. unfold x, delta. destruct (Nat.eqb i a); lra. }
    lra.
Qed.
Lemma lap1_zero mode n i : lap1 mode n (fun _ => 0) i = 0.
Proof. unfold lap1, np_diff, np_pad. repeat destruct (pad_index _ _ _); simpl; ring. Qed.
Lemma lap_row_along s ax mode n l : bsum s (fun j => Rabs (along ax (lap1 mode n) (unit_arr j) l)) <= 4.
Proof.
  set (o := fun k => pad_index mode n (Z.of_nat (k + nth ax l 0%nat) - Z.of_nat 1)).
  eapply Rle_trans; [apply (bsum_le s _ (fun j => Rabs (read (o 2%nat) (fun i => unit_arr j (set_nth ax i l)))
     + (2 * Rabs (read (o 1%nat) (fun i => unit_arr j (set_nth ax i l))) + Rabs (read (o 0%nat) (fun i => unit_arr j (set_nth ax i l))))))|].
  - intros j _. unfold along, lap1, np_diff, np_pad.
    change (pad_index mode n (Z.of_nat (S (S (nth ax l 0%nat))) - Z.of_nat 1)) with (o 2%nat).
    change (pad_index mode n (Z.of_nat (S (nth ax l 0%nat)) - Z.of_nat 1)) with (o 1%nat).
    change (pad_index mode n (Z.of_nat (nth ax l 0%nat) - Z.of_nat 1)) with (o 0%nat).
    unfold Rabs. repeat destruct (Rcase_abs _); lra.
  - rewrite !bsum_plus, bsum_scal. pose proof (read_row s (o 2%nat) l ax). pose proof (read_row s (o 1%nat) l ax). pose proof (read_row s (o 0%nat) l ax). lra.
Qed.

(** Laplacian: the column bound holds in any dimension; the row bound and the norm bound along one axis only *)
Theorem C22_laplacian_column_sums : forall s axes mode j, lap_mode mode -> valid_axes (length s) axes -> inb s j ->
  bsum s (fun i => Rabs (lap_entry s axes mode i j)) <= lap_tau (length axes).
Proof.
  intros s axes mode j Hm Hax Hj. unfold lap_tau, lap_entry, laplacian. rewrite (Rmult_comm 4).
  eapply Rle_trans; [apply (bsum_le s _ (fun i => rsum (length axes) (fun ii => Rabs (along (norm_axis (length s) (nth ii axes 0%Z)) (lap1 mode (axis_len s (nth ii axes 0%Z))) (unit_arr j) i))))|].
  - intros i _. apply rsum_abs.
  - rewrite bsum_rsum. apply rsum_le_const. intros ii Hii. pose proof (axis_in s axes ii Hax Hii) as Ha.
    apply along_cols; auto; [lra| |intros; apply lap1_zero]. intros a. apply lap1_cols; [exact Hm|]. apply (inb_nth_pos s _ j Hj Ha).
Qed.
Theorem C22_laplacian_1axis : forall s ax mode, lap_mode mode -> valid_axes (length s) [ax] -> (forall n, In n s -> (0 < n)%nat) ->
  (forall i, bsum s (fun j => Rabs (lap_entry s [ax] mode i j)) <= / lap_sigma) /\
  (forall x, lap_sigma * adot s (laplacian s [ax] mode x) (laplacian s [ax] mode x) <= lap_tau 1 * adot s x x).
Proof.
  intros s ax mode Hm Hax Hpos. split.
  - intros i. unfold lap_entry, laplacian, lap_sigma. replace (/ (1 / 4)) with 4 by field. cbn [length rsum nth].
    rewrite (bsum_ext s _ (fun j => Rabs (along (norm_axis (length s) ax) (lap1 mode (axis_len s ax)) (unit_arr j) i))) by (intros; f_equal; ring).
    apply lap_row_along.
  - intros x. unfold adot, lap_sigma, lap_tau.
    pose proof (axis_in s [ax] 0 Hax ltac:(simpl; lia)) as Ha. cbn [nth] in Ha.
    assert (E : bsum s (fun l => laplacian s [ax] mode x l * laplacian s [ax] mode x l) <= 16 * bsum s (fun l => x l ^ 2)).
    { rewrite (bsum_ext s _ (fun l => along (norm_axis (length s) ax) (lap1 mode (axis_len s ax)) x l ^ 2)) by (intros; unfold laplacian; cbn [length rsum nth]; ring).
      apply along_sq; [exact Ha|]. intros u. apply lap1_sq; [exact Hm|]. apply Hpos, nth_In, Ha. }
    rewrite (bsum_ext s (fun l => x l ^ 2) (fun l => x l * x l)) in E by (intros; ring). simpl INR. lra.
Qed.
(** REFUTED in two dimensions (the default), with the default 'edge' padding: *)
Definition checker : arr := fun l => match l with [a; b] => if Nat.even (a + b) then 1 else -1 | _ => 0 end.
Theorem C22_laplacian_2d_refuted :
  lap_sigma * adot [4%nat; 4%nat] (laplacian [4%nat; 4%nat] (default_axes 2) PadEdge checker) (laplacian [4%nat; 4%nat] (default_axes 2) PadEdge checker)
  > lap_tau 2 * adot [4%nat; 4%nat] checker checker.
Proof.
  unfold lap_sigma, lap_tau, default_axes. cbv -[Rplus Rmult Rminus Ropp IZR INR Rdiv Rgt]. simpl INR. lra.
Qed.

(** * C23 *)
Lemma soft_threshold_min v t q : 0 <= t ->
  let p := soft_threshold1 v t in p ^ 2 / 2 - v * p + t * Rabs p <= q ^ 2 / 2 - v * q + t * Rabs q.
Proof.
  intros Ht p. pose proof (Rle_abs q) as Hq1. pose proof (Rle_abs (- q)) as Hq2. rewrite Rabs_Ropp in Hq2.
  pose proof (Rabs_pos q) as Hq0. assert (Hv : v * q <= Rabs v * Rabs q) by (rewrite <- Rabs_mult; apply Rle_abs).
  set (aq := Rabs q) in *. unfold p, soft_threshold1, np_sign, np_fmax.
  destruct (Rle_dec (Rabs v - t) 0) as [Hc|Hc].
  - rewrite Rmax_right by exact Hc. rewrite Rmult_0_r, Rabs_R0. pose proof (Rmult_le_compat_r aq (Rabs v) t Hq0 ltac:(lra)). pose proof (pow2_ge_0 q). lra.
  - rewrite Rmax_left by lra. destruct (Rlt_dec 0 v); [|destruct (Rlt_dec v 0)].
    + rewrite (Rabs_right v) in * by lra. rewrite (Rabs_right (1 * (v - t))) by lra. pose proof (pow2_ge_0 (q - (v - t))). nra.
    + rewrite (Rabs_left v) in * by lra. rewrite (Rabs_left (-1 * (- v - t))) by lra. pose proof (pow2_ge_0 (q - (v + t))). nra.
    + assert (v = 0) by lra. subst v. rewrite Rabs_R0 in Hc. lra.
Qed.
Theorem C23_masked_soft_threshold : forall weight mask x tau i,
  let p := r_prox_primal (Regularizer_l1 weight (Some mask)) x tau i in
  (mask i = 1 -> 0 <= tau i * weight i -> p = soft_threshold1 (x i) (tau i * weight i) /\
     forall q, p ^ 2 / 2 - x i * p + tau i * weight i * Rabs p <= q ^ 2 / 2 - x i * q + tau i * weight i * Rabs q) /\
  (mask i = 0 -> p = x i).
Proof.
  intros weight mask x tau i p.
  assert (Ep : p = x i * (1 - mask i) + soft_threshold1 (x i * mask i) (tau i * weight i)) by reflexivity.
  clearbody p. split.
  - intros H1 Ht. rewrite H1 in Ep. replace (x i * (1 - 1)) with 0 in Ep by ring. rewrite Rmult_1_r, Rplus_0_l in Ep. split; [exact Ep|].
    intros q. rewrite Ep. set (t := tau i * weight i) in *. apply soft_threshold_min. exact Ht.
  - intros H0. rewrite Ep, H0. rewrite Rmult_0_r. unfold soft_threshold1, np_sign. destruct (Rlt_dec 0 0); [lra|]. ring.
Qed.
Theorem C23_unmasked : forall weight x tau i,
  r_prox_primal (Regularizer_l1 weight None) x tau i = soft_threshold1 (x i) (tau i * weight i).
Proof. reflexivity. Qed.
