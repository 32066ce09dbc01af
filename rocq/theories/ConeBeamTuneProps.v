(** C164: tune_acquisition_geometry (cone_beam.py:577-643), and fitting twice with the same fitter (527). *)
From Coq Require Import Reals Lra Lia List ZArith Bool String.
Import ListNotations.
From Verif Require Import Sums PyErr Rounding GeometryModel ProcPreModel ParamTuningModel ParamTuningProps AlignFitModel AlignFitProps ConeBeamModel ConeBeamProps.
Open Scope R_scope.

(** the library contract: the parabola fitted through the samples is the least-squares one, whatever the residuals *)
Definition parabola_library (fit : fitter) (vals : list num) : Prop :=
  forall f, List.length f = List.length vals -> parabola_fits fit ScaleLinear (map nval vals) f.
Definition sampled (vals : list num) : Prop := (3 <= List.length vals)%nat /\ increasing (map nval vals).

Lemma tuning_list g f vals : In f field_names -> exists gs, get_tuning_params g f vals true = inr gs.
Proof.
  intros H. induction vals as [|v r [gs IH]]; cbn [get_tuning_params]; [eauto|].
  destruct (C82_update g f v true (Some 3%nat) H) as (g' & _ & _ & _ & E & _). rewrite E, IH. eauto.
Qed.
Lemma nth_nval vals i : nth i (map nval vals) 0 = nval (nth i vals (NInt 0)).
Proof. change 0 with (nval (NInt 0)). apply map_nth. Qed.

(** one parameter: the call succeeds, changes nothing else, and the new value is inside the tested range (to the three decimals kept) *)
Theorem C164_tune_in_range : forall fit resid g name vals old, In name field_names -> getf g name = Some old ->
  sampled vals -> parabola_library fit vals ->
  exists g' new, tune fit resid g [(name, vals)] = inr g' /\ differ_only name g g' /\ getf g' name = Some new /\
    nval old + nval (nth 0 vals (NInt 0)) - 1 / 2000 <= nval new <= nval old + nval (nth (List.length vals - 1) vals (NInt 0)) + 1 / 2000.
Proof.
  intros fit resid g name vals old Hn Ho [Hl Hi] F. cbn [tune]. destruct (tuning_list g name vals Hn) as [gs Egs]. rewrite Egs.
  destruct (C82_tuning g name vals true gs Egs) as [Lg _].
  assert (Lf : List.length (map resid gs) = List.length (map nval vals)) by (rewrite !map_length; exact Lg).
  destruct (C132_in_range fit ScaleLinear 6 (map nval vals) (map resid gs)) as (m & y & b & E & R & _); [rewrite map_length; exact Hl|exact Lf|exact I|exact Hi|apply F; rewrite Lf, map_length; reflexivity|].
  rewrite E. destruct (C82_update g name (NFlt m) true (Some 3%nat) Hn) as (g' & old' & new & Eo & Eu & D & En & B). rewrite Eu.
  exists g', new. split; [reflexivity|]. split; [exact D|]. split; [exact En|]. rewrite Ho in Eo. injection Eo as <-.
  cbv zeta in B. cbn [nval] in B. apply Rabs_le_between in B. rewrite !nth_nval, map_length in R. replace (/ 2 / 10 ^ 3) with (1 / 2000) in B by (simpl; lra). lra.
Qed.

(** any number of parameters: a field that is not named keeps its value *)
Theorem C164_tune_other_fields : forall fit resid params g g', tune fit resid g params = inr g' ->
  forall f, ~ In f (map fst params) -> getf g' f = getf g f.
Proof.
  intros fit resid. induction params as [|[name vals] rest IH]; intros g g' H f Hf; cbn [tune] in H; [injection H as <-; reflexivity|].
  destruct (get_tuning_params g name vals true) as [?|gs]; [discriminate|]. destruct (fit_parabola_min _ _ _ _ _) as [?|[[m y] b]]; [discriminate|].
  destruct (cg_update g name (NFlt m) true (Some 3%nat)) as [?|g1] eqn:E; [discriminate|]. cbn [map fst In] in Hf.
  rewrite (IH g1 g' H f) by tauto. destruct (in_dec string_dec name field_names) as [Hn|Hn].
  - destruct (C82_update g name (NFlt m) true (Some 3%nat) Hn) as (g2 & _ & _ & _ & Eu & D & _). rewrite Eu in E. injection E as <-. apply D. intros C. apply Hf. left. symmetry. exact C.
  - rewrite (C82_unknown_field g name (NFlt m) true (Some 3%nat) Hn) in E. discriminate.
Qed.
(** several parameters are tuned one after the other, each starting from the result of the ones before *)
Theorem C164_tune_in_turn : forall fit resid ps qs g, tune fit resid g (ps ++ qs) =
  match tune fit resid g ps with inl e => inl e | inr g' => tune fit resid g' qs end.
Proof.
  intros fit resid. induction ps as [|[name vals] rest IH]; intros qs g; [reflexivity|]. cbn [app tune].
  destruct (get_tuning_params g name vals true) as [?|gs]; [reflexivity|]. destruct (fit_parabola_min _ _ _ _ _) as [?|[[m y] b]]; [reflexivity|].
  destruct (cg_update g name (NFlt m) true (Some 3%nat)) as [?|g1]; [reflexivity|apply IH].
Qed.
(** a name that is not a field, or fewer than three values *)
Theorem C164_tune_errors : forall fit resid g name vals rest,
  (~ In name field_names /\ vals <> [] -> tune fit resid g ((name, vals) :: rest) = inl AttributeError) /\
  (In name field_names /\ (List.length vals < 3)%nat -> tune fit resid g ((name, vals) :: rest) = inl ValueError).
Proof.
  intros fit resid g name vals rest. split.
  - intros [Hn Hv]. destruct vals as [|v r]; [contradiction|]. cbn [tune get_tuning_params]. rewrite (C82_unknown_field g name v true (Some 3%nat) Hn). reflexivity.
  - intros [Hn Hv]. cbn [tune]. destruct (tuning_list g name vals Hn) as [gs Egs]. rewrite Egs, C132_bad_lengths; [reflexivity|]. left. rewrite map_length. exact Hv.
Qed.

(** the residual is a parabola of the parameter with its minimum at [best], bracketed by the samples: [best] is found to the decimals kept *)
Theorem C164_tune_recovers : forall fit resid g name vals old c a best, In name field_names -> getf g name = Some old ->
  sampled vals -> parabola_library fit vals -> 0 < a ->
  (forall h w, differ_only name g h -> getf h name = Some w -> resid h = c + a * (nval w - best) ^ 2) ->
  (forall v, In v vals -> exists z, nval old + nval v = IZR z / 1000) ->
  let v := fun i => nval old + nval (nth i vals (NInt 0)) in let n := List.length vals in
  (v 0%nat + v 1%nat) / 2 < best < (v (n - 2)%nat + v (n - 1)%nat) / 2 ->
  exists g' new, tune fit resid g [(name, vals)] = inr g' /\ differ_only name g g' /\ getf g' name = Some new /\
    Rabs (nval new - best) <= 1 / 2000 + 1 / 2000000.
Proof.
  intros fit resid g name vals old c a best Hn Ho [Hl Hi] F Ha Hr Hgrid v n Hb. cbn [tune].
  destruct (tuning_list g name vals Hn) as [gs Egs]. rewrite Egs. destruct (C82_tuning g name vals true gs Egs) as [Lg Ng].
  set (hp := map nval vals). set (f := map resid gs).
  assert (Lh : List.length hp = n) by apply map_length. assert (Lf : List.length f = List.length hp) by (unfold f, hp; rewrite !map_length; exact Lg).
  set (t := best - nval old).
  assert (Hh : forall i, nth i hp 0 = v i - nval old) by (intros i; unfold hp, v; rewrite nth_nval; ring).
  assert (Hf : forall i, (i < n)%nat -> nth i f 0 = c + a * (nth i hp 0 - t) ^ 2).
  { intros i Hin. unfold f. rewrite (nth_indep _ 0 (resid g)) by (rewrite map_length; unfold n in Hin; lia). rewrite map_nth.
    specialize (Ng i Hin). destruct (C82_update g name (nth i vals (NInt 0)) true (Some 3%nat) Hn) as (g' & old' & new & Eo & Eu & D & En & _).
    rewrite Ng in Eu. injection Eu as Eu. rewrite Eu. rewrite (Hr g' new D En). rewrite Ho in Eo. injection Eo as <-.
    assert (Ew : nval new = v i).
    { destruct (Hgrid (nth i vals (NInt 0)) (nth_In _ _ Hin)) as [z Hz].
      unfold cg_update in Ng. destruct (index_In name Hn) as [k Hk]. rewrite Hk in Ng. injection Ng as Ng. destruct (getf_index g name k Hk) as [Gk _]. rewrite Ho in Gk. injection Gk as Gk.
      rewrite <- Eu, <- Ng, (set_get g name name k _ Hk), String.eqb_refl in En. injection En as En. rewrite <- En. rewrite <- Gk.
      unfold v. rewrite Hz. assert (A : nval (nadd old (nth i vals (NInt 0))) = IZR z / 1000) by (rewrite <- Hz; destruct old, (nth i vals (NInt 0)); cbn; rewrite ?plus_IZR; reflexivity).
      destruct (nadd old (nth i vals (NInt 0))) as [x|x|x] eqn:Q; cbn [naround nval] in *; [exact A|exact A|]. rewrite A. replace 1000 with (10 ^ 3) by (simpl; ring). apply around_fix. }
    rewrite Ew, Hh. unfold t. f_equal. f_equal. f_equal. ring. }
  assert (Hinc : forall i j, (i < j < n)%nat -> v i < v j) by (intros i j Hij; specialize (Hi i j); fold hp in Hi; rewrite Lh, !Hh in Hi; specialize (Hi Hij); lra).
  assert (Hgap : forall i j, (i < j < n)%nat -> v i + 1 / 1000 <= v j).
  { intros i j Hij. specialize (Hinc i j Hij). destruct (Hgrid _ (nth_In vals (NInt 0) (n := i) ltac:(unfold n in *; lia))) as [zi Ei]. destruct (Hgrid _ (nth_In vals (NInt 0) (n := j) ltac:(unfold n in *; lia))) as [zj Ej].
    unfold v in *. rewrite Ei, Ej in *. assert (L : IZR zi < IZR zj) by lra. apply lt_IZR in L. assert (Q : IZR (zi + 1) <= IZR zj) by (apply IZR_le; lia). rewrite plus_IZR in Q. lra. }
  destruct (argmin_spec f) as [Hm Hmin]; [intros C; rewrite C in Lf; simpl in Lf; unfold n in *; lia|]. set (m := argmin f) in *. rewrite Lf, Lh in Hm, Hmin.
  pose proof (Hinc 0%nat 1%nat ltac:(unfold n; lia)) as I01. pose proof (Hinc (n - 2)%nat (n - 1)%nat ltac:(unfold n; lia)) as Inn.
  assert (Hint : (0 < m < n - 1)%nat).
  { split.
    - destruct (Nat.eq_dec m 0) as [E0|]; [exfalso|lia]. specialize (Hmin 1%nat ltac:(unfold n; lia)). rewrite E0, !Hf, !Hh in Hmin by (unfold n; lia).
      assert (0 < a * ((v 0%nat - nval old - t) ^ 2 - (v 1%nat - nval old - t) ^ 2)); [|lra]. apply Rmult_lt_0_compat; [exact Ha|]. unfold t in *. nra.
    - destruct (Nat.eq_dec m (n - 1)) as [E0|]; [exfalso|lia]. specialize (Hmin (n - 2)%nat ltac:(unfold n; lia)). rewrite E0, !Hf, !Hh in Hmin by (unfold n; lia).
      assert (0 < a * ((v (n - 1)%nat - nval old - t) ^ 2 - (v (n - 2)%nat - nval old - t) ^ 2)); [|lra]. apply Rmult_lt_0_compat; [exact Ha|]. unfold t in *. nra. }
  assert (Hne : nth m f 0 < nth (m - 1) f 0 \/ nth m f 0 < nth (m + 1) f 0).
  { pose proof (Hinc (m - 1)%nat m ltac:(lia)) as A1. pose proof (Hinc m (m + 1)%nat ltac:(lia)) as A2. rewrite !Hf, !Hh by lia.
    destruct (Rlt_dec (v m - nval old) t).
    - left. assert (0 < a * ((v (m - 1)%nat - nval old - t) ^ 2 - (v m - nval old - t) ^ 2)); [|lra]. apply Rmult_lt_0_compat; [exact Ha|]. nra.
    - right. assert (0 < a * ((v (m + 1)%nat - nval old - t) ^ 2 - (v m - nval old - t) ^ 2)); [|lra]. apply Rmult_lt_0_compat; [exact Ha|]. nra. }
  destruct (C132_interior_minimum fit ScaleLinear 6 hp f) as (c' & b' & a' & Ha' & Q & _ & E); try assumption; [rewrite Lh; exact Hl|exact I|apply F; rewrite Lf; exact Lh|fold m; rewrite Lf, Lh; exact Hint|].
  fold m in Q, E. cbv zeta in Q, E. cbn [to_fit from_fit] in Q, E.
  (* the parabola through the three points is the residual curve *)
  assert (EQ : a' = a /\ b' = - 2 * a * t).
  { pose proof (Hinc (m - 1)%nat m ltac:(lia)) as A1. pose proof (Hinc m (m + 1)%nat ltac:(lia)) as A2.
    pose proof (Q 0%nat ltac:(lia)) as Q0. pose proof (Q 1%nat ltac:(lia)) as Q1. pose proof (Q 2%nat ltac:(lia)) as Q2.
    replace (m - 1 + 0)%nat with (m - 1)%nat in Q0 by lia. replace (m - 1 + 1)%nat with m in Q1 by lia. replace (m - 1 + 2)%nat with (m + 1)%nat in Q2 by lia.
    rewrite !Hf, !Hh in Q0, Q1, Q2 by lia. set (x0 := v (m - 1)%nat - nval old) in *. set (x1 := v m - nval old) in *. set (x2 := v (m + 1)%nat - nval old) in *.
    assert (L1 : x0 < x1) by (unfold x0, x1; lra). assert (L2 : x1 < x2) by (unfold x1, x2; lra). clear - Q0 Q1 Q2 L1 L2.
    assert (D1 : (b' + 2 * a * t) + (a' - a) * (x0 + x1) = 0).
    { apply Rmult_eq_reg_r with (x1 - x0); [|lra]. replace (((b' + 2 * a * t) + (a' - a) * (x0 + x1)) * (x1 - x0)) with ((b' * x1 + a' * x1 ^ 2 - a * (x1 - t) ^ 2) - (b' * x0 + a' * x0 ^ 2 - a * (x0 - t) ^ 2)) by ring. lra. }
    assert (D2 : (b' + 2 * a * t) + (a' - a) * (x1 + x2) = 0).
    { apply Rmult_eq_reg_r with (x2 - x1); [|lra]. replace (((b' + 2 * a * t) + (a' - a) * (x1 + x2)) * (x2 - x1)) with ((b' * x2 + a' * x2 ^ 2 - a * (x2 - t) ^ 2) - (b' * x1 + a' * x1 ^ 2 - a * (x1 - t) ^ 2)) by ring. lra. }
    assert (a' - a = 0) by (apply Rmult_eq_reg_r with (x2 - x0); [replace ((a' - a) * (x2 - x0)) with ((b' + 2 * a * t + (a' - a) * (x1 + x2)) - (b' + 2 * a * t + (a' - a) * (x0 + x1))) by ring; lra|lra]).
    split; [lra|]. replace a' with a in D1 by lra. lra. }
  destruct EQ as [Ea Eb]. assert (Ev : - b' / (2 * a') = t) by (rewrite Ea, Eb; field; lra). rewrite Ev in E.
  pose proof (around_near 6 t) as A6. apply Rabs_le_between in A6. replace (/ (2 * 10 ^ 6)) with (1 / 2000000) in A6 by (simpl; lra).
  rewrite !Hh, Lh in E. pose proof (Hgap 0%nat 1%nat ltac:(unfold n; lia)). pose proof (Hgap (n - 2)%nat (n - 1)%nat ltac:(unfold n; lia)).
  destruct (Rlt_dec (np_around 6 t) (v 0%nat - nval old)) as [C|_]; [exfalso; unfold t in *; lra|].
  destruct (Rlt_dec (v (n - 1)%nat - nval old) (np_around 6 t)) as [C|_]; [exfalso; unfold t in *; lra|].
  rewrite E. destruct (C82_update g name (NFlt (np_around 6 t)) true (Some 3%nat) Hn) as (g' & old' & new & Eo & Eu & D & En & B). rewrite Eu.
  exists g', new. split; [reflexivity|]. split; [exact D|]. split; [exact En|]. rewrite Ho in Eo. injection Eo as <-. cbv zeta in B. cbn [nval] in B.
  replace (/ 2 / 10 ^ 3) with (1 / 2000) in B by (simpl; lra).
  apply Rabs_le_between in B. unfold t in *. apply Rabs_le. lra.
Qed.
(** REFUTED: "the tuning refines the parameter": with test values closer than half a thousandth to the current value every tested
    geometry is the current one and the result is the current one, whatever the residuals *)
Lemma around3_near z d : Rabs d < 1 / 2000 -> np_around 3 (IZR z / 1000 + d) = IZR z / 1000.
Proof.
  intros H. assert (B : - (1 / 2000) < d < 1 / 2000) by (unfold Rabs in H; destruct (Rcase_abs d); lra). unfold np_around. replace (10 ^ 3) with 1000 by (simpl; ring). replace ((IZR z / 1000 + d) * 1000) with (IZR z + 1000 * d) by field.
  assert (E : rint (IZR z + 1000 * d) = z); [|rewrite E; reflexivity].
  pose proof (rint_near (IZR z + 1000 * d)) as N. apply Rabs_le_between in N. set (r := rint _) in *. clearbody r.
  assert (A1 : IZR r < IZR (z + 1)) by (rewrite plus_IZR; lra). assert (A2 : IZR (z - 1) < IZR r) by (rewrite minus_IZR; lra). apply lt_IZR in A1. apply lt_IZR in A2. lia.
Qed.
Lemma update_same g name z d : In name field_names -> getf g name = Some (NFlt (IZR z / 1000)) -> Rabs d < 1 / 2000 -> cg_update g name (NFlt d) true (Some 3%nat) = inr g.
Proof.
  intros Hn Ho Hd. unfold cg_update. destruct (index_In name Hn) as [k Hk]. rewrite Hk. destruct (getf_index g name k Hk) as [G Hlt]. rewrite Ho in G. assert (G' : nth k (field_values g) (NInt 0) = NFlt (IZR z / 1000)) by congruence. clear G. rewrite G'. cbn [nadd nval naround].
  rewrite around3_near by exact Hd. rewrite <- G'. f_equal. destruct g. clear. do 10 (destruct k as [|k]; [reflexivity|]). reflexivity.
Qed.
Theorem C164_fine_tuning_refuted : forall fit resid g name ds z, In name field_names -> getf g name = Some (NFlt (IZR z / 1000)) ->
  sampled (map NFlt ds) -> parabola_library fit (map NFlt ds) -> (forall d, In d ds -> Rabs d < 1 / 2000) ->
  get_tuning_params g name (map NFlt ds) true = inr (map (fun _ => g) ds) /\ tune fit resid g [(name, map NFlt ds)] = inr g.
Proof.
  intros fit resid g name ds z Hn Ho [Hl Hi] F Hd.
  assert (T : get_tuning_params g name (map NFlt ds) true = inr (map (fun _ => g) ds)).
  { clear - Hn Ho Hd. induction ds as [|d r IH]; [reflexivity|]. cbn [map get_tuning_params]. rewrite (update_same g name z d Hn Ho (Hd d (or_introl eq_refl))). rewrite IH by (intros; apply Hd; right; assumption). reflexivity. }
  split; [exact T|]. cbn [tune]. rewrite T. set (hp := map nval (map NFlt ds)) in *. set (f := map resid (map (fun _ => g) ds)).
  assert (Lh : List.length hp = List.length ds) by (unfold hp; rewrite !map_length; reflexivity). assert (Lf : List.length f = List.length hp) by (unfold f; rewrite !map_length; symmetry; exact Lh).
  destruct (C132_in_range fit ScaleLinear 6 hp f) as (m & y & b & E & R & _); [rewrite Lh; rewrite map_length in Hl; exact Hl|exact Lf|exact I|exact Hi|apply F; rewrite Lf, Lh, map_length; reflexivity|].
  rewrite E. assert (Eh : hp = ds) by (unfold hp; rewrite map_map; cbn [nval]; apply map_id). rewrite Eh in R. rewrite map_length in Hl.
  assert (M : Rabs m < 1 / 2000).
  { pose proof (Hd _ (nth_In ds 0 (n := 0) ltac:(lia))) as B0. pose proof (Hd _ (nth_In ds 0 (n := List.length ds - 1) ltac:(lia))) as B1.
    assert (forall x, Rabs x < 1 / 2000 -> - (1 / 2000) < x < 1 / 2000) as Q by (intros x Hx; unfold Rabs in Hx; destruct (Rcase_abs x); lra). apply Q in B0. apply Q in B1. apply Rabs_def1; lra. }
  rewrite (update_same g name z m Hn Ho M). reflexivity.
Qed.

(** ** fitting twice *)
(** the same arguments again: the same geometry *)
Theorem C164_refit_same : forall st r e meas st' g, cb_fit st r e meas = (st', inr g) -> cb_fit st' r e meas = (st', inr g).
Proof.
  intros st r e meas st' g H. unfold cb_fit in H. destruct (pick_D _ meas) as [?|D] eqn:PD; [discriminate|]. cbv zeta in H.
  destruct (Rlt_dec _ _) as [?|NV]; [discriminate|]. destruct (close0 _) eqn:C0; [discriminate|]. injection H as <- <-.
  unfold cb_fit. cbn [fs_ell1 fs_ell2 fs_geom fs_c1 fs_c2 fs_origin cg_theta cg_phi cg_eta cg_D cg_R cg_v0 cg_u0 cg_nv cg_nu cg_pix]. rewrite PD. cbv zeta.
  destruct (Rlt_dec _ _) as [?|_]; [contradiction|]. rewrite C0. cbn [fs_origin]. reflexivity.
Qed.
(** REFUTED: "the projected origin belongs to the last fit": the one of the first fit is kept, e.g. when a second fit is given another distance *)
Theorem C164_origin_kept_refuted : forall st r e meas r' e' meas' o, fs_origin (fst (cb_fit st r e meas)) = Some o ->
  fs_origin (fst (cb_fit (fst (cb_fit st r e meas)) r' e' meas')) = Some o.
Proof.
  intros st r e meas r' e' meas' o H. set (s1 := fst (cb_fit st r e meas)) in *. clearbody s1. unfold cb_fit. destruct (pick_D _ meas') as [?|D]; [exact H|]. cbv zeta.
  destruct (Rlt_dec _ _); [exact H|]. destruct (close0 _); [exact H|]. rewrite H. reflexivity.
Qed.

(** Non-vacuity: a library that interpolates; the angle theta tuned with the offsets -1, 0, 1 *)
Definition interpolate : fitter := fun _ xs ys => let '(c, b, a) := quad_coeffs (xs 0%nat) (xs 1%nat) (xs 2%nat) (ys 0%nat) (ys 1%nat) (ys 2%nat) in [c; b; a].
Lemma interpolate_library vals : sampled vals -> parabola_library interpolate vals.
Proof.
  intros [Hl Hi] f Lf. unfold parabola_fits. cbn [to_fit]. set (i := fit_first (List.length f) (argmin f)). unfold fits, interpolate. cbv beta.
  assert (Hi3 : (i + 2 < List.length vals)%nat).
  { destruct (argmin_spec f) as [Hm _]; [intros C; rewrite C in Lf; simpl in Lf; lia|]. destruct (fit_first_range (List.length f) (argmin f) ltac:(lia) Hm) as [A _]. fold i in A. lia. }
  assert (D : forall p q, (p < q <= 2)%nat -> nth (i + p) (map nval vals) 0 < nth (i + q) (map nval vals) 0) by (intros p q Hpq; apply Hi; rewrite map_length; lia).
  pose proof (D 0%nat 1%nat ltac:(lia)). pose proof (D 1%nat 2%nat ltac:(lia)). pose proof (D 0%nat 2%nat ltac:(lia)).
  destruct (quad_coeffs _ _ _ _ _ _) as [[c b] a] eqn:Q. apply quad_interp in Q; [|lra|lra|lra]. destruct Q as (Q0 & Q1 & Q2).
  split; [reflexivity|]. intros c' _. apply Rle_trans with 0; [|apply rsum_nonneg; intros; apply pow2_ge_0]. right. cbn [rsum peval]. rewrite <- Q0, <- Q1, <- Q2. ring.
Qed.
Example C164_example : let vals := [NInt (-1); NInt 0; NInt 1] in let v := fun i => nval (NFlt 0) + nval (nth i vals (NInt 0)) in
  In "theta_deg"%string field_names /\ getf g_int "theta_deg" = Some (NFlt 0) /\ sampled vals /\ parabola_library interpolate vals /\
  (forall x, In x vals -> exists z, nval (NFlt 0) + nval x = IZR z / 1000) /\ (v 0%nat + v 1%nat) / 2 < 1 / 10 < (v (3 - 2)%nat + v (3 - 1)%nat) / 2.
Proof.
  cbv zeta. assert (S : sampled [NInt (-1); NInt 0; NInt 1]).
  { split; [simpl; lia|]. intros i j Hij. cbn [map nval List.length] in *. destruct i as [|[|i]], j as [|[|[|j]]]; cbn [nth]; try lia; lra. }
  split; [left; reflexivity|]. split; [reflexivity|]. split; [exact S|]. split; [apply interpolate_library, S|]. split.
  - intros x [<-|[<-|[<-|[]]]]; [exists (-1000)%Z|exists 0%Z|exists 1000%Z]; cbn [nval]; lra.
  - cbn [nth nval Nat.sub]. lra.
Qed.
