(** * C221: elements, tabulated compounds and delta over beta *)
From Coq Require Import Reals Lra Lia List ZArith String Bool.
From Verif Require Import Sums PyErr Rounding PhysicsModel XraylibModel.
Import ListNotations.
Open Scope R_scope.

(** The two element look-ups agree on numbers and symbols, and going through them twice changes nothing, for tables that are
    inverse to each other. *)
Theorem C221_element number_of symbol_of e s z : (forall t y, number_of t = Some y <-> symbol_of y = Some t) ->
  get_element_number_and_symbol number_of symbol_of e = inr (s, z) ->
  number_of s = Some z /\ symbol_of z = Some s
  /\ get_element_number number_of (ESymbol s) = inr z /\ get_element_number number_of (EInt z) = inr z
  /\ get_element_number_and_symbol number_of symbol_of (ESymbol s) = inr (s, z)
  /\ get_element_number_and_symbol number_of symbol_of (EInt z) = inr (s, z)
  /\ get_element_number_and_symbol number_of symbol_of (ENumpyInt z) = inr (s, z).
Proof.
  intros T H. assert (N : number_of s = Some z).
  { destruct e as [y|y|t]; cbn in H; [destruct (symbol_of y) as [u|] eqn:E|destruct (symbol_of y) as [u|] eqn:E|destruct (number_of t) as [y|] eqn:E];
      try discriminate; injection H as <- <-; try exact E; now apply T. }
  assert (S : symbol_of z = Some s) by now apply T. cbn. rewrite N, S. repeat split.
Qed.
(** REFUTED: "every whole number is accepted": one from numpy is, by the look-up of both, but not by get_element_number. *)
Theorem C221_numpy_integer_refuted number_of symbol_of s z : symbol_of z = Some s ->
  get_element_number_and_symbol number_of symbol_of (ENumpyInt z) = inr (s, z) /\ get_element_number number_of (ENumpyInt z) = inl TypeError.
Proof. intros H. cbn. now rewrite H. Qed.

(** The table comes first: for a name it holds, elements and fractions are the table's, whatever the parser says; another
    name goes to the parser; a name neither knows is refused. *)
Theorem C221_table_first nist parser eld name d :
  (forall en, nist name = Some en -> exists c, get_compound_nist nist parser eld name d = inr c /\ cname c = name /\ elements c = n_elements en /\ mass_fractions c = n_fractions en)
  /\ (forall els fr, nist name = None -> parser name = Some (els, fr) ->
      exists c, get_compound_nist nist parser eld name d = inr c /\ cname c = name /\ elements c = els /\ mass_fractions c = fr)
  /\ (nist name = None -> parser name = None -> get_compound_nist nist parser eld name d = inl ValueError).
Proof.
  split; [|split].
  - intros en E. unfold get_compound_nist. rewrite E. eexists. repeat split.
  - intros els fr E P. unfold get_compound_nist. rewrite E, P. eexists. repeat split.
  - intros E P. unfold get_compound_nist. now rewrite E, P.
Qed.
(** It is the get_compound of PhysicsModel.v (C148) with the two look-ups in this order. *)
Theorem C221_refines_c148 nist parser eld name d :
  get_compound_nist nist parser eld name d
  = get_compound (fun s => match nist s with Some e => Some (n_elements e, n_fractions e) | None => parser s end) eld name d.
Proof.
  unfold get_compound_nist, get_compound. cbn beta. destruct (nist name) as [e|]; [|destruct (parser name) as [[els fr]|]; [|reflexivity]]; f_equal; f_equal;
    (destruct d; [reflexivity|]); unfold weighted, lsum; [generalize (combine (n_elements e) (n_fractions e))|generalize (combine els fr)];
    intros l; induction l as [|p l IH]; cbn; congruence.
Qed.

Lemma sum_below (hi : R) els : forall fr (eld : nat -> R), List.length els = List.length fr -> (forall x, In x fr -> 0 <= x) -> (forall z, In z els -> eld z <= hi) ->
  fold_right Rplus 0 (map (fun p => eld (fst p) * snd p) (combine els fr)) <= hi * fold_right Rplus 0 fr.
Proof.
  induction els as [|e els IH]; intros [|x fr] eld L N B; try discriminate; cbn [combine map fold_right fst snd]; [lra|].
  injection L as L. specialize (IH fr eld L (fun y Hy => N y (or_intror Hy)) (fun y Hy => B y (or_intror Hy))).
  pose proof (N x (or_introl eq_refl)). pose proof (B e (or_introl eq_refl)). nra.
Qed.
(** REFUTED: "without a density, a compound of the table has its tabulated density": the table's is overwritten.  It is
    irrelevant to the result, and when it lies above the densities of all the elements (water, of two gases) the result is too
    small -- by any factor, since nothing relates the two. *)
Theorem C221_table_density_refuted nist parser eld name en hi factor :
  nist name = Some en -> List.length (n_elements en) = List.length (n_fractions en) -> (forall x, In x (n_fractions en) -> 0 <= x) ->
  fold_right Rplus 0 (n_fractions en) = 1 -> (forall z, In z (n_elements en) -> eld z <= hi) -> factor * hi < n_density en -> 0 < factor ->
  exists c, get_compound_nist nist parser eld name None = inr c /\ factor * cdensity c < n_density en.
Proof.
  intros E L N S B H F. unfold get_compound_nist. rewrite E. eexists. split; [reflexivity|]. cbn [cdensity].
  pose proof (sum_below hi _ _ eld L N B) as Q. rewrite S in Q. nra.
Qed.
Theorem C221_table_density_irrelevant nist parser eld name en rho d :
  nist name = Some en ->
  get_compound_nist nist parser eld name d
  = get_compound_nist (fun s => if String.eqb s name then Some {| n_elements := n_elements en; n_fractions := n_fractions en; n_density := rho |} else nist s) parser eld name d.
Proof. intros E. unfold get_compound_nist. now rewrite E, String.eqb_refl. Qed.

(** delta / beta is not affected by any of this: with a refractive index whose distance from one is proportional to the
    density it is the same for every density but zero, given or not; the given one is used for the index. *)
Theorem C221_delta_beta nist parser eld refr name energy (delta beta : R) d c :
  (forall rho, refr name energy rho = Some (1 - rho * delta, rho * beta)) -> beta <> 0 ->
  get_compound_nist nist parser eld name d = inr c -> cdensity c <> 0 ->
  get_delta_beta nist parser eld refr name energy d = inr (delta / beta).
Proof.
  intros R B G D. unfold get_delta_beta. rewrite G, R. cbn [fst snd]. f_equal. field. split; assumption.
Qed.
Theorem C221_delta_beta_given nist parser eld refr name energy rho c :
  get_compound_nist nist parser eld name (Some rho) = inr c ->
  get_delta_beta nist parser eld refr name energy (Some rho)
  = match refr name energy rho with Some n => inr ((1 - fst n) / snd n) | None => inl ValueError end.
Proof.
  intros G. unfold get_delta_beta. rewrite G. unfold get_compound_nist in G.
  destruct (match nist name with Some e => _ | None => _ end) as [[els fr]|]; [|discriminate]. injection G as <-. reflexivity.
Qed.

(** The curves: one per compound, in order, with one value per energy, from the lower to the upper end of the range in
    equal steps. *)
Lemma collect_spec {A B} (f : A -> py_err + B) l bs : collect f l = inr bs <-> List.length bs = List.length l /\ forall i a, nth_error l i = Some a -> exists b, nth_error bs i = Some b /\ f a = inr b.
Proof.
  revert bs. induction l as [|a l IH]; intros bs; cbn [collect].
  - split.
    + intros [= <-]. split; [reflexivity|]. intros [|i] a H; discriminate.
    + intros [L _]. destruct bs; [reflexivity|discriminate].
  - split.
    + destruct (f a) as [e|b] eqn:Fa; [discriminate|]. destruct (collect f l) as [e|r] eqn:C; [discriminate|]. intros [= <-].
      destruct (proj1 (IH r) eq_refl) as [L H]. split; [cbn; now f_equal|]. intros [|i] a' E; cbn in *; [injection E as <-; now exists b|now apply H].
    + intros [L H]. destruct bs as [|b bs]; [discriminate|]. destruct (H 0%nat a eq_refl) as (b' & E & Fa). injection E as <-. rewrite Fa.
      assert (C : collect f l = inr bs). { apply IH. split; [now injection L|]. intros i a' E. exact (H (S i) a' E). }
      now rewrite C.
Qed.
Theorem C221_curves nist parser eld refr names lo hi m cs :
  get_delta_beta_curves nist parser eld refr names lo hi m = inr cs ->
  List.length cs = List.length names
  /\ forall i name, nth_error names i = Some name -> exists c, nth_error cs i = Some c /\ List.length c = m
     /\ forall j, (j < m)%nat -> exists v, nth_error c j = Some v
        /\ forall energy, energy * INR (m - 1) = lo * INR (m - 1 - j) + hi * INR j -> (m = 1%nat -> energy = lo) ->
           get_delta_beta nist parser eld refr name energy None = inr v.
Proof.
  unfold get_delta_beta_curves. intros H. apply collect_spec in H as [L H]. split; [exact L|]. intros i name E.
  destruct (H i name E) as (c & Ec & Hc). exists c. split; [exact Ec|]. apply collect_spec in Hc as [Lc Hc]. rewrite seq_length in Lc. split; [exact Lc|].
  intros j Hj. destruct (Hc j j) as (v & Ev & Hv).
  - rewrite (nth_error_nth' _ 0%nat) by now rewrite seq_length. now rewrite seq_nth.
  - exists v. split; [exact Ev|]. intros energy He H1. rewrite <- Hv. f_equal. unfold linspace. destruct (Nat.eqb_spec m 1) as [->|N]; [now apply H1|].
    assert (P : 0 < INR (m - 1)) by (apply lt_0_INR; lia). rewrite (minus_INR (m - 1) j) in He by lia.
    apply Rmult_eq_reg_r with (INR (m - 1)); [|lra]. rewrite He. field. lra.
Qed.
(** One unknown compound and there are no curves at all (unless no energy is asked for). *)
Lemma collect_error {A B} (f : A -> py_err + B) e l : (forall a, (exists b, f a = inr b) \/ f a = inl e) -> (exists bs, collect f l = inr bs) \/ collect f l = inl e.
Proof.
  intros H. induction l as [|a l IH]; cbn [collect]; [left; now exists []|]. destruct (H a) as [[b ->] | ->]; [|now right].
  destruct IH as [[bs ->] | ->]; [left; now exists (b :: bs)|now right].
Qed.
Theorem C221_curves_unknown nist parser eld refr names lo hi m name : In name names -> nist name = None -> parser name = None -> (0 < m)%nat ->
  get_delta_beta_curves nist parser eld refr names lo hi m = inl ValueError.
Proof.
  intros I E P Hm.
  assert (D : forall n x, (exists b, get_delta_beta nist parser eld refr n x None = inr b) \/ get_delta_beta nist parser eld refr n x None = inl ValueError).
  { intros n x. unfold get_delta_beta, get_compound_nist. destruct (match nist n with Some e => _ | None => _ end) as [[els fr]|]; [|now right].
    destruct (refr n x _); [left; eexists; reflexivity|now right]. }
  unfold get_delta_beta_curves. destruct (collect_error (fun c => collect (fun i => get_delta_beta nist parser eld refr c (linspace lo hi m i) None) (seq 0 m)) ValueError names) as [[bs H]|H]; [|exfalso|exact H].
  - intros a. apply collect_error. intros i. apply D.
  - apply collect_spec in H as [_ H]. apply In_nth_error in I as [i Hi]. destruct (H i name Hi) as (c & _ & Hc). destruct m; [lia|]. cbn [seq collect] in Hc.
    unfold get_delta_beta, get_compound_nist in Hc. rewrite E, P in Hc. discriminate.
Qed.

(** Non-trivial case: water, tabulated with density 1, from hydrogen and oxygen gas. *)
Definition water_table (s : string) : option nist_entry :=
  if String.eqb s "Water, Liquid" then Some {| n_elements := [1; 8]%nat; n_fractions := [1 / 9; 8 / 9]; n_density := 1 |} else None.
Theorem C221_example parser : exists c,
  get_compound_nist water_table parser (fun z => if Nat.eqb z 1 then 84 / 1000000 else 1331 / 1000000) "Water, Liquid" None = inr c
  /\ elements c = [1; 8]%nat /\ 600 * cdensity c < 1 /\ cdensity c <> 0
  /\ exists c', get_compound_nist water_table parser (fun _ => 0) "Water, Liquid" (Some 1) = inr c' /\ cdensity c' = 1.
Proof.
  unfold get_compound_nist. cbn. eexists. split; [reflexivity|]. cbn [elements cdensity]. split; [reflexivity|]. split; [lra|]. split; [lra|]. eexists. split; reflexivity.
Qed.
