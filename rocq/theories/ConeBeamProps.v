(** C81, C82, C136, C137: cone-beam geometries and their calibration (alignment/cone_beam.py). *)
From Coq Require Import Reals Lra Lia List ZArith Bool String Nsatz.
Import ListNotations.
From Verif Require Import Sums PyErr Rounding GeometryModel GeometryProps ParamTuningModel ParamTuningProps ProcPreModel AlignFitModel AlignFitProps AlignEllipseProps ConeBeamModel.
Open Scope R_scope.

(** * C81: the projection geometry *)
Definition vsub (a b : vec3) : vec3 := vadd a (vscal (-1) b).
Definition the {A} (d : A) (l : list A) : A := nth 0 l d.
Definition src_of (p : prj_geom) := the vzero (g_src p).
Definition det_of (p : prj_geom) := the vzero (g_det p).
Definition eu_of (p : prj_geom) := the vzero (g_u p).
Definition ev_of (p : prj_geom) := the vzero (g_v p).

Lemma sc t : sin t * sin t + cos t * cos t = 1.
Proof. pose proof (sin2_cos2 t) as H. unfold Rsqr in H. lra. Qed.
Lemma frame_nn g : vdot (e_n_xyz g) (e_n_xyz g) = 1.
Proof. unfold vdot, e_n_xyz. cbn [vx vy vz]. pose proof (sc (cg_th g)). pose proof (sc (cg_ph g)). nsatz. Qed.
Lemma frame_aa g : vdot (alpha_xyz g) (alpha_xyz g) = 1.
Proof. unfold vdot, alpha_xyz. cbn [vx vy vz]. pose proof (sc (cg_ph g)). nsatz. Qed.
Lemma frame_bb g : vdot (beta_xyz g) (beta_xyz g) = 1.
Proof. unfold vdot, beta_xyz. cbn [vx vy vz]. pose proof (sc (cg_th g)). pose proof (sc (cg_ph g)). nsatz. Qed.
Lemma frame_ab g : vdot (alpha_xyz g) (beta_xyz g) = 0.
Proof. unfold vdot, alpha_xyz, beta_xyz. cbn [vx vy vz]. ring. Qed.
Lemma frame_an g : vdot (alpha_xyz g) (e_n_xyz g) = 0.
Proof. unfold vdot, alpha_xyz, e_n_xyz. cbn [vx vy vz]. ring. Qed.
Lemma frame_bn g : vdot (beta_xyz g) (e_n_xyz g) = 0.
Proof. unfold vdot, beta_xyz, e_n_xyz. cbn [vx vy vz]. pose proof (sc (cg_ph g)). nsatz. Qed.
Lemma cross_na g : vcross (e_n_xyz g) (alpha_xyz g) = vscal (-1) (beta_xyz g).
Proof. unfold e_n_xyz, alpha_xyz, beta_xyz. pose proof (sc (cg_ph g)). apply vec3_eq; unfold vcross, vscal; cbn [vx vy vz]; nsatz. Qed.
Lemma cross_nb g : vcross (e_n_xyz g) (beta_xyz g) = alpha_xyz g.
Proof. unfold e_n_xyz, alpha_xyz, beta_xyz. pose proof (sc (cg_th g)). pose proof (sc (cg_ph g)). apply vec3_eq; unfold vcross, vscal; cbn [vx vy vz]; nsatz. Qed.

Definition eta_of (g : cone_geom) := deg2rad (nval (cg_eta g)).
Lemma vnorm_unit v : vdot v v = 1 -> vnorm v = 1.
Proof. intros H. unfold vnorm. rewrite H. apply sqrt_1. Qed.
Lemma rot_frame g v : vdot (e_n_xyz g) v = 0 ->
  rotvec_apply (vscal (eta_of g) (vscal (-1) (e_n_xyz g))) v = vadd (vscal (cos (eta_of g)) v) (vscal (- sin (eta_of g)) (vcross (e_n_xyz g) v)).
Proof.
  intros Hv. rewrite rotvec_scal. pose proof (frame_nn g) as Hn.
  assert (N1 : vnorm (vscal (-1) (e_n_xyz g)) = 1). { rewrite vnorm_scal, (vnorm_unit _ Hn), Rabs_left by lra. ring. }
  rewrite N1. destruct (Req_EM_T 1 0); [lra|]. rewrite Rinv_1, Rmult_1_r. unfold rodrigues.
  assert (Hv' : vdot (vscal 1 (vscal (-1) (e_n_xyz g))) v = 0). { transitivity (-1 * vdot (e_n_xyz g) v); [unfold vdot, vscal; cbn [vx vy vz]; ring|rewrite Hv; ring]. }
  rewrite Hv'. apply vec3_eq; unfold vadd, vscal, vcross; cbn [vx vy vz]; ring.
Qed.
Lemma eu_eq g tr : eu_of (get_prj_geom g tr) = vadd (vscal (cos (eta_of g)) (alpha_xyz g)) (vscal (sin (eta_of g)) (beta_xyz g)).
Proof.
  unfold eu_of, get_prj_geom. cbn [g_u the nth]. fold (eta_of g). rewrite rot_frame by (rewrite vdot_comm; apply frame_an). rewrite cross_na. apply vec3_eq; unfold vadd, vscal; cbn [vx vy vz]; ring.
Qed.
Lemma ev_eq g tr : ev_of (get_prj_geom g tr) = vadd (vscal (cos (eta_of g)) (beta_xyz g)) (vscal (- sin (eta_of g)) (alpha_xyz g)).
Proof.
  unfold ev_of, get_prj_geom. cbn [g_v the nth]. fold (eta_of g). rewrite rot_frame by (rewrite vdot_comm; apply frame_bn). rewrite cross_nb. reflexivity.
Qed.
Lemma src_det g tr : is_int (cg_R g) = false \/ tr = false ->
  vsub (src_of (get_prj_geom g tr)) (det_of (get_prj_geom g tr)) = det_center g.
Proof.
  intros H. unfold src_of, det_of, get_prj_geom. cbn [g_src g_det the nth]. destruct tr.
  - destruct H as [H|H]; [|discriminate]. rewrite H. unfold vsub, shift_z, store, det_pos0, src_pos0, det_center. apply vec3_eq; unfold vadd, vscal; cbn [vx vy vz]; ring.
  - unfold vsub, det_pos0, src_pos0, det_center. apply vec3_eq; unfold vadd, vscal; cbn [vx vy vz]; ring.
Qed.
(** for every geometry: the detector axes are an orthonormal pair and the normal they span is at distance D from the source *)
Theorem C81_detector_frame : forall g tr, is_int (cg_R g) = false \/ tr = false ->
  let p := get_prj_geom g tr in
  vdot (eu_of p) (eu_of p) = 1 /\ vdot (ev_of p) (ev_of p) = 1 /\ vdot (eu_of p) (ev_of p) = 0 /\
  vdot (vsub (src_of p) (det_of p)) (vcross (ev_of p) (eu_of p)) = nval (cg_D g) /\
  vdot (vsub (src_of p) (det_of p)) (eu_of p) = cos (eta_of g) * nval (cg_u0 g) + sin (eta_of g) * nval (cg_v0 g) /\
  vdot (vsub (src_of p) (det_of p)) (ev_of p) = cos (eta_of g) * nval (cg_v0 g) - sin (eta_of g) * nval (cg_u0 g).
Proof.
  intros g tr H p. unfold p. rewrite (src_det g tr H), eu_eq, ev_eq. clear p.
  pose proof (frame_nn g) as Nn. pose proof (frame_aa g) as Aa. pose proof (frame_bb g) as Bb. pose proof (frame_ab g) as Ab. pose proof (frame_an g) as An. pose proof (frame_bn g) as Bn.
  pose proof (sc (eta_of g)) as E. pose proof (cross_na g) as Cna. pose proof (cross_nb g) as Cnb.
  assert (X : vcross (vadd (vscal (cos (eta_of g)) (beta_xyz g)) (vscal (- sin (eta_of g)) (alpha_xyz g))) (vadd (vscal (cos (eta_of g)) (alpha_xyz g)) (vscal (sin (eta_of g)) (beta_xyz g))) = e_n_xyz g).
  { clear - E. unfold e_n_xyz, alpha_xyz, beta_xyz. pose proof (sc (cg_th g)). pose proof (sc (cg_ph g)). apply vec3_eq; unfold vcross, vadd, vscal; cbn [vx vy vz]; nsatz. }
  rewrite X. unfold det_center. clear X Cna Cnb.
  set (n := e_n_xyz g) in *. set (a := alpha_xyz g) in *. set (b := beta_xyz g) in *. set (c := cos (eta_of g)) in *. set (s := sin (eta_of g)) in *. clearbody n a b c s.
  destruct n as [nx ny nz], a as [ax ay az], b as [bx by_ bz]. unfold vdot, vadd, vscal in *. cbn [vx vy vz] in *.
  repeat split; nsatz.
Qed.
(** the source is at the distance R of the rotation axis (z) *)
Theorem C81_source : forall g tr, vx (src_of (get_prj_geom g tr)) = nval (cg_R g) /\ vy (src_of (get_prj_geom g tr)) = 0 /\ g_rot (get_prj_geom g tr) = [V3 0 0 1].
Proof. intros g tr. unfold src_of, get_prj_geom. cbn [g_src g_rot the nth]. destruct tr; unfold shift_z, src_pos0, vscal; cbn [vx vy vz]; repeat split; ring. Qed.
(** with translate_z_to_center, the ray from the source to the middle of the detector crosses the plane of the rotation axis at height zero *)
Theorem C81_centred : forall g, is_int (cg_R g) = false -> 0 < vx (det_center g) ->
  let p := get_prj_geom g true in exists s, vx (vadd (det_of p) (vscal s (vsub (src_of p) (det_of p)))) = 0 /\ vz (vadd (det_of p) (vscal s (vsub (src_of p) (det_of p)))) = 0.
Proof.
  intros g Hi Hx p. unfold p. rewrite (src_det g true (or_introl Hi)). exists (1 - nval (cg_R g) / vx (det_center g)).
  pose proof (src_det g true (or_introl Hi)) as E. fold p in E. assert (Ex := f_equal vx E). assert (Ez := f_equal vz E). unfold vsub, vadd, vscal in Ex, Ez. cbn [vx vz] in Ex, Ez.
  fold p. set (d := det_of p) in *. set (c := det_center g) in *.
  assert (Sx : vx (src_of p) = nval (cg_R g)) by apply C81_source.
  assert (Sz : vz (src_of p) = vz c / vx c * nval (cg_R g)).
  { unfold src_of, p, get_prj_geom. cbn [g_src the nth]. rewrite Hi. unfold shift_z, store, src_pos0, translation_z. fold c. cbn [vx vy vz vscal]. rewrite (Rabs_right (vx c)) by lra. ring. }
  unfold vadd, vscal. cbn [vx vy vz]. split.
  - replace (vx d) with (nval (cg_R g) - vx c) by lra. field. lra.
  - replace (vz d) with (vz c / vx c * nval (cg_R g) - vz c) by lra. field. lra.
Qed.
Definition g_int : cone_geom := mkCG (NFlt 0) (NFlt 0) (NFlt 0) (NInt 4) (NInt 2) (NInt 1) (NInt 0) (NInt 8) (NInt 8) (NFlt 0).
(** REFUTED for an integer R_pix: the height of the source is truncated, the one of the detector is not, so the source is no longer above
    the point (u0, v0) of the detector *)
Lemma sin0 : sin (deg2rad 0) = 0. Proof. unfold deg2rad. replace (0 * PI / 180) with 0 by field. apply sin_0. Qed.
Lemma cos0 : cos (deg2rad 0) = 1. Proof. unfold deg2rad. replace (0 * PI / 180) with 0 by field. apply cos_0. Qed.
Theorem C81_integer_R_refuted : exists g, nval (cg_eta g) = 0 /\ is_int (cg_R g) = true /\
  let p := get_prj_geom g true in vdot (vsub (src_of p) (det_of p)) (ev_of p) <> nval (cg_v0 g).
Proof.
  exists g_int. split; [reflexivity|]. split; [reflexivity|]. intros p.
  assert (V : ev_of p = V3 0 0 1).
  { unfold p. rewrite ev_eq. unfold eta_of, alpha_xyz, beta_xyz, cg_th, cg_ph, g_int. cbn [cg_eta cg_phi cg_theta nval]. rewrite sin0, cos0. apply vec3_eq; unfold vadd, vscal; cbn [vx vy vz]; ring. }
  rewrite V. unfold vdot. cbn [vx vy vz].
  assert (T : translation_z g_int = 1 / 2).
  { unfold translation_z, det_center, e_n_xyz, alpha_xyz, beta_xyz, cg_th, cg_ph, g_int. cbn [cg_phi cg_theta cg_D cg_R cg_v0 cg_u0 nval vadd vscal vx vy vz]. rewrite sin0, cos0.
    replace (4 * (1 * 1) + 0 * - 0 + 1 * (- 0 * 1)) with 4 by ring. rewrite Rabs_right by lra. field. }
  unfold p, src_of, det_of, get_prj_geom, vsub. cbn [g_src g_det the nth vadd vscal shift_z vx vy vz]. rewrite T.
  unfold det_pos0, src_pos0, e_n_xyz, alpha_xyz, beta_xyz, cg_th, cg_ph. cbn [is_int cg_phi cg_theta cg_D cg_R cg_v0 cg_u0 nval vadd vscal vx vy vz g_int]. rewrite sin0, cos0. unfold store.
  assert (I : trunc0 (2 * 0 + 1 / 2) = 0%Z).
  { unfold trunc0. destruct (Rle_dec 0 (2 * 0 + 1 / 2)); [|lra]. unfold Int_part. rewrite <- (tech_up (2 * 0 + 1 / 2) 1); [reflexivity|cbn; lra|cbn; lra]. }
  rewrite I. intros Q. cbn in Q. lra.
Qed.

(** * C82: updates and JSON *)
Definition getf (g : cone_geom) (f : string) : option num := lookup f (combine field_names (field_values g)).
Lemma Rabs_le_between a b : Rabs a <= b -> - b <= a <= b.
Proof. intros H. pose proof (Rle_abs a). pose proof (Rle_abs (- a)). rewrite Rabs_Ropp in *. lra. Qed.
Lemma getf_index g f i : index_of f field_names = Some i -> getf g f = Some (nth i (field_values g) (NInt 0)) /\ (i < 10)%nat.
Proof.
  unfold getf, field_names, field_values. cbn [index_of combine lookup].
  repeat (destruct (String.eqb f _); [intros E; injection E as <-; split; [reflexivity|lia]|]). discriminate.
Qed.
Lemma index_In f : In f field_names -> exists i, index_of f field_names = Some i.
Proof.
  unfold field_names. cbn [In]. intros H.
  repeat (destruct H as [<-|H]; [eexists; reflexivity|]). contradiction.
Qed.
Lemma set_get g f h i w : index_of f field_names = Some i -> getf (of_values (set_nth i w (field_values g))) h = if String.eqb h f then Some w else getf g h.
Proof.
  intros E. assert (Hf : In f field_names).
  { unfold field_names in *. cbn [index_of] in E. cbn [In].
    repeat (match type of E with context [String.eqb f ?s] => destruct (String.eqb_spec f s) as [->|_]; [tauto|] end). discriminate. }
  unfold field_names in Hf. cbn [In] in Hf.
  repeat (destruct Hf as [<-|Hf]; [cbn in E; injection E as <-; unfold getf, field_names, field_values, of_values; cbn [set_nth nth combine lookup cg_theta cg_phi cg_eta cg_D cg_R cg_v0 cg_u0 cg_nv cg_nu cg_pix];
     repeat (match goal with |- context [String.eqb h ?s] => destruct (String.eqb_spec h s); [subst; reflexivity|] end); reflexivity|]). contradiction.
Qed.
(** a geometry and a copy that differ in at most the field f *)
Definition differ_only (f : string) (g g' : cone_geom) : Prop := forall h, h <> f -> getf g' h = getf g h.
(** for every field and value a new geometry is returned, the other fields are kept, and the field has the requested (relative or absolute)
    value, to within half a unit of the last decimal *)
Theorem C82_update : forall g f val (rel : bool) dec, In f field_names -> exists g' old new, getf g f = Some old /\ cg_update g f val rel dec = inr g' /\ differ_only f g g' /\
  getf g' f = Some new /\
  let target := if rel then nval old + nval val else nval val in
  match dec with None => nval new = target | Some d => Rabs (nval new - target) <= / 2 / 10 ^ d end.
Proof.
  intros g f val rel dec H. destruct (index_In f H) as [i Hi]. destruct (getf_index g f i Hi) as [Hg _]. unfold cg_update. rewrite Hi.
  set (w := match dec with Some d => _ | None => _ end). exists (of_values (set_nth i w (field_values g))), (nth i (field_values g) (NInt 0)), w.
  split; [exact Hg|]. split; [reflexivity|]. split; [|split].
  - intros h Hh. rewrite (set_get g f h i w Hi). destruct (String.eqb_spec h f); [contradiction|reflexivity].
  - rewrite (set_get g f f i w Hi), String.eqb_refl. reflexivity.
  - assert (A : forall a b, nval (nadd a b) = nval a + nval b) by (intros [|?|?] [|?|?]; cbn; rewrite ?plus_IZR; reflexivity).
    assert (P : nval (if rel then nadd (nth i (field_values g) (NInt 0)) val else val) = (if rel then nval (nth i (field_values g) (NInt 0)) + nval val else nval val)) by (destruct rel; [apply A|reflexivity]).
    unfold w. destruct dec as [d|]; cbn zeta; [|exact P]. rewrite <- P. set (x := if rel then _ else _). pose proof (pow_lt 10 d ltac:(lra)) as Hp.
    destruct x; cbn [naround nval]; try (rewrite Rminus_diag_eq by reflexivity; rewrite Rabs_R0; apply Rmult_le_pos; [lra|left; apply Rinv_0_lt_compat; exact Hp]).
    eapply Rle_trans; [apply around_near|]. right. field. apply Rgt_not_eq, Hp.
Qed.
Theorem C82_unknown_field : forall g f val (rel : bool) dec, ~ In f field_names -> cg_update g f val rel dec = inl (if rel then AttributeError else TypeError).
Proof.
  intros g f val rel dec H. unfold cg_update. assert (E : index_of f field_names = None); [|now rewrite E].
  unfold field_names in *. cbn [index_of In] in *.
  repeat (match goal with |- context [String.eqb f ?s] => destruct (String.eqb_spec f s) as [->|_]; [tauto|] end). reflexivity.
Qed.
(** the default of three decimals loses smaller corrections, such as the ones tune_acquisition_geometry computes to six decimals *)
Theorem C82_small_update_refuted : exists g g' f val, In f field_names /\ cg_update g f (NFlt val) true (Some 3%nat) = inr g' /\ val = np_around 6 val /\ val <> 0 /\
  forall h v, getf g h = Some v -> exists v', getf g' h = Some v' /\ nval v' = nval v.
Proof.
  exists g_int. eexists. exists "theta_deg"%string, (4 / 10000). split; [now left|]. split; [reflexivity|].
  assert (R6 : np_around 6 (4 / 10000) = 4 / 10000).
  { unfold np_around. replace (4 / 10000 * 10 ^ 6) with (IZR 400) by (cbn; lra). rewrite rint_Z. cbn. lra. }
  split; [now rewrite R6|]. split; [lra|].
  intros h v. cbn [set_nth of_values nth field_values g_int cg_theta cg_phi cg_eta cg_D cg_R cg_v0 cg_u0 cg_nv cg_nu cg_pix nadd naround nval].
  assert (R3 : np_around 3 (0 + 4 / 10000) = 0).
  { unfold np_around. assert (Z0 : rint ((0 + 4 / 10000) * 10 ^ 3) = 0%Z); [|rewrite Z0; unfold Rdiv; ring]. pose proof (rint_near ((0 + 4 / 10000) * 10 ^ 3)) as N. set (z := rint _) in *. clearbody z. apply Rabs_le_between in N. assert (L : IZR z < 1) by (cbn in N; lra). assert (G : -1 < IZR z) by (cbn in N; lra). apply lt_IZR in L. apply lt_IZR in G. lia. }
  rewrite R3. unfold getf, g_int, field_values. cbn [field_names combine lookup cg_theta cg_phi cg_eta cg_D cg_R cg_v0 cg_u0 cg_nv cg_nu cg_pix].
  repeat (match goal with |- context [String.eqb h ?s] => destruct (String.eqb_spec h s); [intros E; injection E as <-; eexists; split; reflexivity|] end). discriminate.
Qed.
(** saving and loading restores every field, whatever the loading geometry held before *)
Theorem C82_json_round_trip : forall g h t, to_json g = inr t -> from_json h t = (g, None).
Proof.
  intros g h t. unfold to_json. destruct (forallb plain (field_values g)); [|discriminate]. intros E. injection E as <-. destruct g, h. reflexivity.
Qed.
Theorem C82_saved : forall g, (forall f n z, getf g f = Some n -> n <> NInt64 z) -> exists t, to_json g = inr t.
Proof.
  intros g H. unfold to_json. assert (E : forallb plain (field_values g) = true); [|rewrite E; eauto].
  apply forallb_forall. intros n Hn. destruct n as [|z|]; try reflexivity. exfalso.
  unfold field_values in Hn. cbn [In] in Hn.
  repeat (destruct Hn as [Hn|Hn]; [first [apply (H "theta_deg"%string _ z (eq_refl)) in Hn; exact Hn | apply (H "phi_deg"%string _ z (eq_refl)) in Hn; exact Hn | apply (H "eta_deg"%string _ z (eq_refl)) in Hn; exact Hn
    | apply (H "D_pix"%string _ z (eq_refl)) in Hn; exact Hn | apply (H "R_pix"%string _ z (eq_refl)) in Hn; exact Hn | apply (H "v0_pix"%string _ z (eq_refl)) in Hn; exact Hn | apply (H "u0_pix"%string _ z (eq_refl)) in Hn; exact Hn
    | apply (H "det_size_v_pix"%string _ z (eq_refl)) in Hn; exact Hn | apply (H "det_size_u_pix"%string _ z (eq_refl)) in Hn; exact Hn | apply (H "pix_size_um"%string _ z (eq_refl)) in Hn; exact Hn]|]). contradiction.
Qed.
(** REFUTED: after a default update of an integer field by an integer, the geometry cannot be saved *)
Theorem C82_unsavable_refuted : forall g f z w d, getf g f = Some (NInt z) -> exists g', cg_update g f (NInt w) true (Some d) = inr g' /\ to_json g' = inl AttributeError.
Proof.
  intros g f z w d H. unfold cg_update. destruct (index_of f field_names) as [i|] eqn:E.
  - destruct (getf_index g f i E) as [G Hi]. rewrite H in G. assert (G' : nth i (field_values g) (NInt 0) = NInt z) by congruence. clear G. rewrite G'. eexists. split; [reflexivity|]. cbn [nadd naround].
    unfold to_json. match goal with |- (if ?b then _ else _) = _ => assert (B : b = false); [|now rewrite B] end.
    do 10 (destruct i as [|i]; [cbn [set_nth of_values field_values nth forallb plain cg_theta cg_phi cg_eta cg_D cg_R cg_v0 cg_u0 cg_nv cg_nu cg_pix andb]; rewrite ?andb_false_r; reflexivity|]). lia.
  - exfalso. unfold getf, field_names, field_values in *. cbn [index_of combine lookup] in *.
    repeat (destruct (String.eqb f _); [discriminate|]). discriminate.
Qed.
(** several instances are refused as documented; a document of another class raises TypeError instead of the documented ValueError *)
Theorem C82_several_instances : forall g a b r, from_json g (a :: b :: r) = (g, Some ValueError).
Proof. intros g [? ?] b r. reflexivity. Qed.
Theorem C82_wrong_class_refuted : forall g name d, name <> "ConeBeamGeometry"%string -> from_json g [(name, d)] = (g, Some TypeError).
Proof. intros g name d H. unfold from_json. destruct (String.eqb_spec name cone_class); [contradiction|reflexivity]. Qed.
(** REFUTED: a document that lacks a field raises KeyError and leaves a half-loaded geometry behind *)
Theorem C82_half_loaded_refuted : exists g t g', from_json g t = (g', Some KeyError) /\ g' <> g /\ getf g' "theta_deg" <> getf g "theta_deg" /\ getf g' "phi_deg" = getf g "phi_deg".
Proof.
  exists g_int, [("ConeBeamGeometry"%string, [("theta_deg"%string, NFlt 7)])]. eexists. split; [reflexivity|]. assert (NE : getf (mkCG (NFlt 7) (NFlt 0) (NFlt 0) (NInt 4) (NInt 2) (NInt 1) (NInt 0) (NInt 8) (NInt 8) (NFlt 0)) "theta_deg" <> getf g_int "theta_deg").
  { cbn. intros E. injection E as E. lra. }
  split; [intros E; apply NE; now rewrite <- E|]. split; [exact NE|reflexivity].
Qed.
(** the tuning list: one geometry per value, each differing from the original in the field only *)
Theorem C82_tuning : forall g f vals rel gs, get_tuning_params g f vals rel = inr gs -> List.length gs = List.length vals /\
  forall i, (i < List.length vals)%nat -> cg_update g f (nth i vals (NInt 0)) rel (Some 3%nat) = inr (nth i gs g).
Proof.
  intros g f vals rel. induction vals as [|v r IH]; intros gs H; cbn [get_tuning_params] in H.
  - injection H as <-. split; [reflexivity|]. intros i Hi. cbn in Hi. lia.
  - destruct (cg_update g f v rel (Some 3%nat)) as [?|x] eqn:E; [discriminate|]. destruct (get_tuning_params g f r rel) as [?|l]; [discriminate|]. injection H as <-.
    destruct (IH l eq_refl) as [L N]. split; [cbn; now rewrite L|]. intros [|i] Hi; cbn [nth]; [exact E|]. apply N. cbn in Hi. lia.
Qed.
Example C82_example : exists t, to_json g_int = inr t /\ from_json (of_values []) t = (g_int, None).
Proof. eexists. split; reflexivity. Qed.
