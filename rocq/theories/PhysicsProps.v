(** Properties of the physics helpers (C88-C93, C146-C149). *)
From Coq Require Import Reals Lra Lia List ZArith String Bool Ascii Permutation.
From Verif Require Import Sums PyErr Arrays Rounding Reindex PhysicsModel.
Import ListNotations.
Open Scope R_scope.

(** ** C88: units *)
Lemma lookup_pos t k v : Forall (fun p => 0 < snd p) t -> lookup t k = inr v -> 0 < v.
Proof.
  intros F. unfold lookup. destruct (find _ t) as [p|] eqn:E; [|discriminate]. intros [= <-]. apply find_some in E as [E _]. rewrite Forall_forall in F. exact (F p E).
Qed.
Lemma metric_pos : Forall (fun p => 0 < snd p) metric_orders. Proof. repeat constructor; cbn; lra. Qed.
Lemma energy_pos : Forall (fun p => 0 < snd p) energy_orders. Proof. repeat constructor; cbn; lra. Qed.
Definition is_metric (u : string) : Prop := In u ["km"; "m"; "cm"; "mm"; "um"; "nm"; "a"]%string.
Definition is_energy (u : string) : Prop := In u ["GeV"; "MeV"; "keV"; "eV"; "meV"; "ueV"]%string.
Definition known (t : table) (u : string) : Prop := In u (map fst t).
Lemma lookup_known t u : (exists v, lookup t u = inr v) <-> known t u.
Proof.
  unfold known, lookup. split.
  - intros [v H]. destruct (find _ t) as [p|] eqn:E; [|discriminate]. apply find_some in E as [E1 E2]. apply String.eqb_eq in E2. rewrite <- E2. now apply in_map.
  - intros H. apply in_map_iff in H as (p & <- & Hp). destruct (find (fun q => String.eqb (fst q) (fst p)) t) as [q|] eqn:E; [eauto|].
    exfalso. apply (find_none _ _ E) in Hp. cbn in Hp. rewrite String.eqb_refl in Hp. discriminate.
Qed.
Lemma lookup_err t u e : lookup t u = inl e -> e = KeyError. Proof. unfold lookup. destruct (find _ t); [discriminate|now intros [= <-]]. Qed.
Theorem C88_convert_composes : forall t a b c x y, Forall (fun p => 0 < snd p) t -> convert t a b = inr x -> convert t b c = inr y -> convert t a c = inr (x * y) /\ 0 < x.
Proof.
  intros t a b c x y P H1 H2. unfold convert in *. destruct (lookup t b) as [e|vb] eqn:Eb; [discriminate|]. destruct (lookup t a) as [e|va] eqn:Ea; [discriminate|].
  destruct (lookup t c) as [e|vc] eqn:Ec; [discriminate|]. injection H1 as <-. injection H2 as <-. apply (lookup_pos t a va P) in Ea. apply (lookup_pos t b vb P) in Eb. split.
  - f_equal. field. lra.
  - unfold Rdiv. apply Rmult_lt_0_compat; [exact Eb|]. now apply Rinv_0_lt_compat.
Qed.
Theorem C88_convert_units : (forall a b, (exists x, convert metric_orders a b = inr x) <-> is_metric a /\ is_metric b) /\ (forall a b, (exists x, convert energy_orders a b = inr x) <-> is_energy a /\ is_energy b) /\
  (forall t a b e, convert t a b = inl e -> e = KeyError) /\ (forall a, is_metric a -> convert metric_orders a a = inr 1) /\ (forall a, is_energy a -> convert energy_orders a a = inr 1).
Proof.
  assert (G : forall t a b, (exists x, convert t a b = inr x) <-> known t a /\ known t b).
  { intros t a b. rewrite <- !lookup_known. unfold convert. destruct (lookup t b) as [e|vb], (lookup t a) as [e'|va]; split; intros H; try (destruct H as [? H]; discriminate); try (destruct H as [[? H1] [? H2]]; discriminate); eauto. }
  assert (S : forall t a, Forall (fun p => 0 < snd p) t -> known t a -> convert t a a = inr 1).
  { intros t a P H. apply lookup_known in H as [v H]. unfold convert. rewrite H. apply (lookup_pos t a v P) in H. f_equal. field. lra. }
  split; [intros; apply G|]. split; [intros; apply G|]. split.
  - intros t a b e. unfold convert. destruct (lookup t b) as [e1|] eqn:E1; [intros [= <-]; exact (lookup_err _ _ _ E1)|]. destruct (lookup t a) as [e2|] eqn:E2; [intros [= <-]; exact (lookup_err _ _ _ E2)|discriminate].
  - split; intros a H; apply S; (apply metric_pos || apply energy_pos || exact H).
Qed.
(** the conversions against the physical law: the energy in eV times the wavelength in metres is 1 / c *)
Theorem C88_wavelength_law : forall c e uw ue w, 0 < c -> 0 < e -> energy_to_wlength c e uw ue = inr w ->
  exists to_m to_ev, convert metric_orders uw "m" = inr to_m /\ convert energy_orders ue "eV" = inr to_ev /\ (w * to_m) * (e * to_ev) = 1 / c /\ wlength_to_energy c w uw ue = inr e.
Proof.
  intros c e uw ue w Hc He H. unfold energy_to_wlength, wlength_to_energy in *.
  destruct (convert metric_orders "m" uw) as [x|fm] eqn:Em; [discriminate|]. destruct (convert energy_orders "eV" ue) as [x|fe] eqn:Ee; [discriminate|]. injection H as <-.
  destruct (C88_convert_units) as (UM & UE & _ & SM & SE).
  assert (KM : is_metric "m" /\ is_metric uw) by (apply UM; eauto). assert (KE : is_energy "eV" /\ is_energy ue) by (apply UE; eauto).
  assert (X0 : is_metric uw /\ is_metric "m") by tauto. destruct (proj2 (UM uw "m"%string) X0) as [tm Etm].
  assert (X : is_energy ue /\ is_energy "eV") by tauto. destruct (proj2 (UE ue "eV"%string) X) as [te Ete].
  destruct (C88_convert_composes _ _ _ _ _ _ metric_pos Em Etm) as [C1 P1]. destruct (C88_convert_composes _ _ _ _ _ _ energy_pos Ee Ete) as [C2 P2].
  rewrite (SM "m"%string (proj1 KM)) in C1. injection C1 as C1. rewrite (SE "eV"%string (proj1 KE)) in C2. injection C2 as C2.
  exists tm, te. split; [exact Etm|]. split; [exact Ete|]. split.
  - replace (fm * fe / (c * e) * tm * (e * te)) with ((fm * tm) * (fe * te) / c) by (field; lra). rewrite <- C1, <- C2. field. lra.
  - f_equal. field. repeat split; lra.
Qed.
(** the factors are the physical ones *)
Definition metres (u : string) (x : R) : Prop :=
  (u = "km"%string /\ x = 1000) \/ (u = "m"%string /\ x = 1) \/ (u = "cm"%string /\ x = / 100) \/ (u = "mm"%string /\ x = / 1000) \/ (u = "um"%string /\ x = / 10 ^ 6) \/
  (u = "nm"%string /\ x = / 10 ^ 9) \/ (u = "a"%string /\ x = / 10 ^ 10).
Definition electronvolts (u : string) (x : R) : Prop :=
  (u = "GeV"%string /\ x = 10 ^ 9) \/ (u = "MeV"%string /\ x = 10 ^ 6) \/ (u = "keV"%string /\ x = 1000) \/ (u = "eV"%string /\ x = 1) \/ (u = "meV"%string /\ x = / 1000) \/
  (u = "ueV"%string /\ x = / 10 ^ 6).
Theorem C88_convert_values : (forall a b x y, metres a x -> metres b y -> convert metric_orders a b = inr (x / y)) /\
  (forall a b x y, electronvolts a x -> electronvolts b y -> convert energy_orders a b = inr (x / y)).
Proof.
  split; intros a b x y Ha Hb; unfold metres, electronvolts in *;
  repeat (destruct Ha as [Ha|Ha]); destruct Ha as [-> ->]; repeat (destruct Hb as [Hb|Hb]); destruct Hb as [-> ->]; unfold convert, lookup; cbn -[pow Rdiv]; f_equal; field.
Qed.
Example C88_example : energy_to_wlength 1 2 "um" "eV" = inr (1000000 / 1 * (1 / 1) / (1 * 2)) /\ convert metric_orders "parsec" "m" = inl KeyError. Proof. split; reflexivity. Qed.

(** ** C90: lines and energies *)
Fixpoint prefix_of (p s : string) : Prop := match p, s with EmptyString, _ => True | String a p', String b s' => a = b /\ prefix_of p' s' | String _ _, EmptyString => False end.
Lemma substring_prefix p : forall s, substring 0 (String.length p) s = p <-> prefix_of p s.
Proof.
  induction p as [|a p IH]; intros s; [destruct s; cbn; tauto|]. destruct s as [|b s]; cbn [String.length substring prefix_of]; [split; [discriminate|tauto]|].
  rewrite <- IH. split; [intros [= <- H]; auto|intros [<- ->]; reflexivity].
Qed.
Lemma upper_length s : String.length (upper s) = String.length s. Proof. induction s as [|a s IH]; cbn; [reflexivity|now rewrite IH]. Qed.
Theorem C90_lines_of_family : forall line l, In l (get_lines line) <-> In l siegbahn_lines /\ prefix_of (upper line) l.
Proof.
  intros line l. unfold get_lines. rewrite filter_In, String.eqb_eq, <- (upper_length line). now rewrite substring_prefix.
Qed.
Theorem C90_lines_once_in_order : forall line, NoDup (get_lines line) /\ exists keep, get_lines line = filter keep siegbahn_lines.
Proof.
  intros line. split; [|eexists; reflexivity]. apply NoDup_filter. unfold siegbahn_lines.
  repeat constructor; cbn; intuition discriminate.
Qed.
Example C90_lines_example : get_lines "ka" = ["KA1"; "KA2"; "KA3"]%string /\ get_lines "Lg1" = ["LG1"]%string /\ get_lines "lb1" = ["LB1"; "LB10"; "LB15"; "LB17"]%string. Proof. repeat split. Qed.
(** refuted: a single line cannot always be asked for by its name: "LB1" returns four lines *)
Theorem C90_single_line_name_refuted : In "LB1"%string siegbahn_lines /\ get_lines "LB1" = ["LB1"; "LB10"; "LB15"; "LB17"]%string. Proof. split; [cbn; tauto|reflexivity]. Qed.
Lemma lsum_ge {A} (l : list A) f g : (forall a, In a l -> f a <= g a) -> lsum l f <= lsum l g.
Proof. induction l as [|a l IH]; intros H; unfold lsum; cbn [fold_right]; [lra|]. apply Rplus_le_compat; [apply H; now left|apply IH; intros; apply H; now right]. Qed.
Lemma lsum_scal {A} (l : list A) c f : lsum l (fun a => c * f a) = c * lsum l f.
Proof. induction l as [|a l IH]; unfold lsum in *; cbn [fold_right]; [ring|]. rewrite IH. ring. Qed.
Lemma lsum_0 {A} (l : list A) : lsum l (fun _ => 0) = 0.
Proof. induction l as [|a l IH]; unfold lsum in *; cbn [fold_right]; lra. Qed.
Theorem C90_average_between : forall energy rate a ls lo hi v, get_lines_list a = inr ls -> ls <> [] -> (forall l, In l ls -> 0 <= or0 (rate l)) ->
  (forall l, In l ls -> 0 < or0 (rate l) -> lo <= or0 (energy l) <= hi) -> get_energy_average energy rate a = inr (Some v) -> lo <= v <= hi.
Proof.
  intros energy rate a ls lo hi v Ha Hne Hr He H. unfold get_energy_average in H. rewrite Ha in H. assert (H' : Some v = if Req_EM_T (rate_sum rate ls) 0 then None else Some (lsum ls (fun l => or0 (energy l) * (or0 (rate l) / rate_sum rate ls)))) by (destruct ls; [congruence|injection H as H; symmetry; exact H]).
  clear H. destruct (Req_EM_T (rate_sum rate ls) 0) as [E|E]; [discriminate|]. injection H' as ->.
  assert (S : 0 < rate_sum rate ls). { assert (0 <= rate_sum rate ls); [|lra]. unfold rate_sum. replace 0 with (lsum ls (fun _ => 0)); [now apply lsum_ge|apply lsum_0]. }
  assert (W : lsum ls (fun l => or0 (rate l) / rate_sum rate ls) = 1).
  { rewrite (lsum_ext ls _ (fun l => / rate_sum rate ls * or0 (rate l))) by (intros; unfold Rdiv; ring). rewrite lsum_scal. fold (rate_sum rate ls). now apply Rinv_l. }
  assert (B : forall l, In l ls -> lo * (or0 (rate l) / rate_sum rate ls) <= or0 (energy l) * (or0 (rate l) / rate_sum rate ls) <= hi * (or0 (rate l) / rate_sum rate ls)).
  { intros l Hl. pose proof (Hr l Hl) as [P|Z].
    - assert (0 < or0 (rate l) / rate_sum rate ls) by (unfold Rdiv; apply Rmult_lt_0_compat; [exact P|now apply Rinv_0_lt_compat]). pose proof (He l Hl P). split; apply Rmult_le_compat_r; lra.
    - rewrite <- Z. unfold Rdiv. rewrite !Rmult_0_l, !Rmult_0_r. lra. }
  split.
  - replace lo with (lo * lsum ls (fun l => or0 (rate l) / rate_sum rate ls)) by (rewrite W; ring). rewrite <- lsum_scal. apply lsum_ge. intros l Hl. now apply B.
  - replace hi with (hi * lsum ls (fun l => or0 (rate l) / rate_sum rate ls)) by (rewrite W; ring). rewrite <- lsum_scal. apply lsum_ge. intros l Hl. now apply B.
Qed.
(** refuted: an unknown family silently has the energy 0 (only an explicit empty list is refused), and a family the element does not emit
    gives no number *)
Theorem C90_unknown_family_refuted : forall energy rate, get_energy_average energy rate (LStr "XY") = inr (Some 0) /\ get_energy_average energy rate (LSeq []) = inl ValueError.
Proof. split; reflexivity. Qed.
Theorem C90_no_emission_refuted : forall energy rate s, get_lines s <> [] -> (forall l, In l (get_lines s) -> rate l = None) -> get_energy_average energy rate (LStr s) = inr None.
Proof.
  intros energy rate s N H. unfold get_energy_average. cbn [get_lines_list]. destruct (get_lines s) as [|l0 ls] eqn:E; [congruence|].
  destruct (Req_EM_T (rate_sum rate (l0 :: ls)) 0) as [_|X]; [reflexivity|]. exfalso. apply X. unfold rate_sum. clear E N X. induction (l0 :: ls) as [|a r IH]; [reflexivity|].
  unfold lsum. cbn [fold_right]. rewrite (H a) by (now left). fold (lsum r (fun l => or0 (rate l))). rewrite IH; [cbn; ring|]. intros; apply H; now right.
Qed.
Example C90_average_example : get_energy_average (fun l => if String.eqb l "KA1" then Some 8 else Some 9) (fun l => if String.eqb l "KA3" then None else Some (1 / 2)) (LStr "KA") = inr (Some (17 / 2)).
Proof.
  unfold get_energy_average. cbn [get_lines_list]. change (get_lines "KA") with ["KA1"; "KA2"; "KA3"]%string. cbv beta iota.
  assert (S : rate_sum (fun l => if String.eqb l "KA3" then None else Some (1 / 2)) ["KA1"; "KA2"; "KA3"]%string = 1) by (unfold rate_sum, lsum; cbn; lra).
  destruct (Req_EM_T _ 0) as [E|_]; [exfalso; lra|]. rewrite S. unfold lsum. cbn. do 2 f_equal. lra.
Qed.

(** ** C146: the detector *)
Theorem C146_detector_accepts_iff : forall s d, (detector_check s [d] = inr tt <-> 0 <= s /\ 0 < d) /\ (forall ds e, detector_check s ds = inl e -> e = ValueError).
Proof.
  intros s d. unfold detector_check. split.
  - destruct (Rlt_dec s 0) as [H|H]; [split; [discriminate|intros []; lra]|]. destruct (Rle_dec d 0) as [H'|H']; split; [discriminate|intros []; lra|intros _; split; lra|reflexivity].
  - intros ds e. destruct (Rlt_dec s 0); [now intros [= <-]|]. destruct ds as [|x [|? ?]]; try (now intros [= <-]). destruct (Rle_dec x 0); [now intros [= <-]|discriminate].
Qed.
(** refuted: "distance_mm : float | NDArray", but no array of distances is accepted *)
Theorem C146_array_distance_refuted : forall s d d' ds, detector_check s (d :: d' :: ds) = inl ValueError.
Proof. intros. unfold detector_check. destruct (Rlt_dec s 0); reflexivity. Qed.
(** refuted: solid_angle_sr is not in steradians but a fraction of the sphere: a detector covering the whole sphere of radius d gives 1, not 4 pi *)
Theorem C146_solid_angle_not_steradians_refuted : forall d, 0 < d -> solid_angle_sr (4 * PI * d ^ 2) d = 1 /\ solid_angle_sr (4 * PI * d ^ 2) d <> 4 * PI.
Proof.
  intros d Hd. assert (E : solid_angle_sr (4 * PI * d ^ 2) d = 1) by (unfold solid_angle_sr; pose proof PI_RGT_0; field; split; lra). rewrite E. split; [reflexivity|]. pose proof PI_4. pose proof PI2_1. unfold PI2 in *. lra.
Qed.
Theorem C146_fraction_monotone : forall s d d', 0 <= s -> 0 < d -> d <= d' -> 0 <= solid_angle_sr s d' <= solid_angle_sr s d /\ 4 * PI * d ^ 2 * solid_angle_sr s d = s.
Proof.
  intros s d d' Hs Hd Hdd. pose proof PI_RGT_0 as HP. unfold solid_angle_sr. assert (0 < d ^ 2) by nra. assert (d ^ 2 <= d' ^ 2) by nra.
  assert (A : 0 < 4 * PI * d ^ 2) by nra. assert (B : 4 * PI * d ^ 2 <= 4 * PI * d' ^ 2) by (apply Rmult_le_compat_l; lra).
  split; [split|].
  - apply Rdiv_le_0_compat; lra.
  - unfold Rdiv. apply Rmult_le_compat_l; [exact Hs|]. apply Rinv_le_contravar; lra.
  - field. split; lra.
Qed.
Theorem C146_angle_range : forall s d, 0 <= s -> 0 < d -> fst (angle_range_rad s d) = - snd (angle_range_rad s d) /\ 0 <= snd (angle_range_rad s d) < PI / 2 /\ d * tan (snd (angle_range_rad s d)) = sqrt s / 2.
Proof.
  intros s d Hs Hd. unfold angle_range_rad, half_angle. cbn [fst snd]. split; [reflexivity|]. split.
  - split; [|apply atan_bound]. destruct (Req_dec (sqrt s / 2 / d) 0) as [->|N]; [rewrite atan_0; lra|].
    rewrite <- atan_0. apply Rlt_le, atan_increasing. assert (0 <= sqrt s / 2 / d) by (apply Rdiv_le_0_compat; [pose proof (sqrt_pos s); lra|exact Hd]). lra.
  - rewrite tan_atan. field. lra.
Qed.
Example C146_example : detector_check 4 [2] = inr tt /\ solid_angle_sr (4 * PI * 4) 2 = 1.
Proof. split; [apply C146_detector_accepts_iff; lra|]. unfold solid_angle_sr. pose proof PI_RGT_0. field. lra. Qed.
