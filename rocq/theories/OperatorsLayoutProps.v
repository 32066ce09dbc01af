(** Theorems C07-C09: wavelet padding and packing, SVD axis bookkeeping. *)
From Coq Require Import Permutation Sorting.Sorted.
From Verif Require Import Sums Arrays SolversModel OperatorsModel OperatorsProps.

(** * C07 *)
Lemma pow2_pos l : (0 < 2 ^ l)%nat.
Proof. pose proof (Nat.pow_nonzero 2 l). lia. Qed.

Theorem C07_padded_length : forall level n,
  let N := (n + swt_pad level n)%nat in
  Nat.divide (2 ^ level) N /\
  (forall m, (n <= m)%nat -> Nat.divide (2 ^ level) m -> (N <= m)%nat) /\
  (swt_pad_l (swt_pad level n) + swt_pad_h (swt_pad level n) = swt_pad level n)%nat /\
  (swt_pad_h (swt_pad level n) <= swt_pad_l (swt_pad level n) <= S (swt_pad_h (swt_pad level n)))%nat.
Proof.
  intros level n N. unfold N, swt_pad. pose proof (pow2_pos level) as Hp. set (a := (2 ^ level)%nat) in *.
  pose proof (Nat.div_mod n a ltac:(lia)) as Hn. pose proof (Nat.mod_upper_bound n a ltac:(lia)) as Hb.
  set (q := (n / a)%nat) in *. set (r := (n mod a)%nat) in *.
  assert (E : ((a - r) mod a = if Nat.eqb r 0 then 0 else a - r)%nat).
  { destruct (Nat.eqb_spec r 0) as [->|Hr]; [rewrite Nat.sub_0_r; apply Nat.mod_same; lia|apply Nat.mod_small; lia]. }
  rewrite E. split; [|split].
  - destruct (Nat.eqb_spec r 0); [exists q; nia|exists (S q); nia].
  - intros m Hm [c ->]. destruct (Nat.eqb_spec r 0); [lia|]. assert (q < c)%nat by nia. nia.
  - unfold swt_pad_l, swt_pad_h. set (p := if Nat.eqb r 0 then 0%nat else (a - r)%nat).
    pose proof (Nat.div_mod p 2 ltac:(lia)). pose proof (Nat.div_mod (p + 1) 2 ltac:(lia)).
    pose proof (Nat.mod_upper_bound p 2 ltac:(lia)). pose proof (Nat.mod_upper_bound (p + 1) 2 ltac:(lia)). lia.
Qed.

(** the position in the padded array of position l *)
Definition sh1 (level : nat) (an : nat * nat) (l : list nat) : list nat :=
  let p := swt_pad level (snd an) in
  if Nat.eqb p 0 then l else set_nth (fst an) (swt_pad_l p + nth (fst an) l 0)%nat l.
Fixpoint sh (level : nat) (axes : list (nat * nat)) (l : list nat) : list nat :=
  match axes with [] => l | a :: r => sh1 level a (sh level r l) end.
Lemma crop_all_sh level axes : forall y l, swt_crop_all level axes y l = y (sh level axes l).
Proof.
  induction axes as [|a r IH]; intros y l; [reflexivity|]. unfold swt_crop_all in *. cbn [fold_left sh]. rewrite IH.
  unfold swt_crop_axis, sh1. destruct (Nat.eqb _ 0); reflexivity.
Qed.
Lemma nth_set_other {A} a b (v d : A) l : a <> b -> nth a (set_nth b v l) d = nth a l d.
Proof. revert a b. induction l as [|h t IH]; intros [|a] [|b] H; simpl; try reflexivity; try lia. apply IH. lia. Qed.
Lemma set_nth_comm {A} a b (v w : A) l : a <> b -> set_nth a v (set_nth b w l) = set_nth b w (set_nth a v l).
Proof. revert a b. induction l as [|h t IH]; intros [|a] [|b] H; simpl; try reflexivity; try lia. f_equal. apply IH. lia. Qed.
Lemma sh1_comm level a b l : fst a <> fst b -> sh1 level a (sh1 level b l) = sh1 level b (sh1 level a l).
Proof.
  intros H. unfold sh1. destruct (Nat.eqb (swt_pad level (snd a)) 0), (Nat.eqb (swt_pad level (snd b)) 0); try reflexivity.
  rewrite !nth_set_other by auto. apply set_nth_comm. exact H.
Qed.
Lemma sh1_sh level a r l : (forall b, In b r -> fst a <> fst b) -> sh1 level a (sh level r l) = sh level r (sh1 level a l).
Proof.
  induction r as [|b r IH]; intros H; [reflexivity|]. cbn [sh]. rewrite sh1_comm by (apply H; left; reflexivity).
  rewrite IH; [reflexivity|]. intros c Hc. apply H. right. exact Hc.
Qed.
Lemma sh1_length level a l : length (sh1 level a l) = length l.
Proof. unfold sh1. destruct (Nat.eqb _ 0); [reflexivity|apply set_nth_length]. Qed.
Lemma pad1_sh1 mode level x a l : (fst a < length l)%nat -> (nth (fst a) l 0 < snd a)%nat ->
  swt_pad_axis mode level x a (sh1 level a l) = x l.
Proof.
  intros Hl Hn. unfold swt_pad_axis, sh1. destruct (Nat.eqb _ 0); [reflexivity|].
  unfold along. rewrite nth_set_nth by exact Hl. unfold np_pad.
  replace (Z.of_nat (swt_pad_l (swt_pad level (snd a)) + nth (fst a) l 0%nat) - Z.of_nat (swt_pad_l (swt_pad level (snd a))))%Z
    with (Z.of_nat (nth (fst a) l 0%nat)) by lia.
  rewrite pad_index_inside by exact Hn. cbn [read]. rewrite set_set_nth, set_nth_nth. reflexivity.
Qed.
Lemma pad_all_sh mode level axes : forall x l, NoDup (map fst axes) ->
  (forall a, In a axes -> (fst a < length l)%nat /\ (nth (fst a) l 0 < snd a)%nat) ->
  swt_pad_all mode level axes x (sh level axes l) = x l.
Proof.
  induction axes as [|a r IH]; intros x l Hnd H; [reflexivity|]. cbn [map] in Hnd. inversion Hnd as [|? ? Hni Hnd']; subst.
  assert (Hne : forall b, In b r -> fst a <> fst b) by (intros b Hb E; apply Hni; rewrite E; apply in_map; exact Hb).
  unfold swt_pad_all in *. cbn [fold_left sh]. rewrite sh1_sh by exact Hne. rewrite IH; [|exact Hnd'|].
  - apply pad1_sh1; apply H; left; reflexivity.
  - intros b Hb. rewrite sh1_length. split; [apply H; right; exact Hb|].
    unfold sh1. destruct (Nat.eqb _ 0); [apply H; right; exact Hb|]. rewrite nth_set_other by (apply not_eq_sym, Hne, Hb). apply H. right. exact Hb.
Qed.

(** Cropping a padded array returns the array: any shape, any distinct axes, any level, any padding mode. *)
Theorem C07_crop_of_pad : forall mode level s axes x l,
  NoDup axes -> (forall a, In a axes -> (a < length s)%nat) -> inb s l ->
  let an := map (fun a => (a, nth a s 0%nat)) axes in
  swt_crop_all level an (swt_pad_all mode level an x) l = x l.
Proof.
  intros mode level s axes x l Hnd Hax Hl an. rewrite crop_all_sh. apply pad_all_sh; unfold an.
  - rewrite map_map. cbn [fst]. rewrite map_id. exact Hnd.
  - intros a Ha. apply in_map_iff in Ha. destruct Ha as (b & <- & Hb). cbn [fst snd].
    rewrite (inb_length s l Hl). split; [auto|]. apply inb_nth; auto.
Qed.
Example C07_example : swt_pad 2 5 = 3%nat /\ swt_pad_l 3 = 2%nat /\ swt_pad_h 3 = 1%nat /\
  swt_pad_all PadEdge 2 [(0%nat, 5%nat)] (fun l => INR (nth 0 l 0%nat)) [7%nat] = 4.
Proof.
  repeat split; try reflexivity. cbv -[Rplus Rmult Rminus Ropp IZR INR]. simpl INR. lra.
Qed.

(** * C08 *)
Lemma label_length n x : length (label n x) = n.
Proof. unfold label. rewrite map_length, seq_length. reflexivity. Qed.
Lemma bits_high n x k : (x < 2 ^ n)%nat -> (n <= k)%nat -> Nat.testbit x k = false.
Proof.
  intros Hx Hk. destruct (Nat.eq_dec x 0) as [->|Hx0]; [apply Nat.bits_0|]. apply Nat.bits_above_log2.
  apply Nat.log2_lt_pow2 in Hx; lia.
Qed.
Lemma label_inj n x y : (x < 2 ^ n)%nat -> (y < 2 ^ n)%nat -> label n x = label n y -> x = y.
Proof.
  intros Hx Hy E. apply Nat.bits_inj. intros k. destruct (le_lt_dec n k) as [Hk|Hk].
  - rewrite !(bits_high n) by assumption. reflexivity.
  - apply (f_equal (fun l => nth (n - 1 - k) l false)) in E. unfold label in E.
    rewrite !(nth_indep _ false (Nat.testbit 0 0)) in E by (rewrite map_length, seq_length; lia).
    rewrite (nth_indep _ _ ((fun b => Nat.testbit x (n - 1 - b)) 0%nat)) in E by (rewrite map_length, seq_length; lia).
    rewrite (nth_indep (map (fun b => Nat.testbit y (n - 1 - b)) (seq 0 n)) _ ((fun b => Nat.testbit y (n - 1 - b)) 0%nat)) in E
      by (rewrite map_length, seq_length; lia).
    rewrite (map_nth (fun b => Nat.testbit x (n - 1 - b))), (map_nth (fun b => Nat.testbit y (n - 1 - b))), seq_nth in E by lia.
    replace (n - 1 - (0 + (n - 1 - k)))%nat with k in E by lia. exact E.
Qed.
Lemma NoDup_map_inj {A B} (f : A -> B) l : (forall x y, In x l -> In y l -> f x = f y -> x = y) -> NoDup l -> NoDup (map f l).
Proof.
  intros Hi H. induction H as [|a l Ha H IH]; simpl; constructor.
  - intros Hin. apply in_map_iff in Hin. destruct Hin as (b & E & Hb). apply Ha.
    rewrite (Hi a b); [exact Hb|left; reflexivity|right; exact Hb|auto].
  - apply IH. intros x y Hx Hy. apply Hi; right; assumption.
Qed.
Lemma labels_length n : length (labels n) = (2 ^ n - 1)%nat.
Proof. unfold labels. rewrite map_length, seq_length. reflexivity. Qed.
Lemma labels_nodup n : NoDup (labels n).
Proof.
  apply NoDup_map_inj; [|apply seq_NoDup]. intros x y Hx Hy. apply in_seq in Hx. apply in_seq in Hy. apply label_inj; lia.
Qed.
Fixpoint bools (n : nat) : list (list bool) :=
  match n with O => [[]] | S m => map (cons false) (bools m) ++ map (cons true) (bools m) end.
Lemma bools_length n : length (bools n) = (2 ^ n)%nat.
Proof. induction n as [|n IH]; [reflexivity|]. simpl. rewrite app_length, !map_length, IH. lia. Qed.
Lemma in_bools n l : length l = n -> In l (bools n).
Proof.
  revert l. induction n as [|n IH]; intros [|b l] H; try discriminate; [left; reflexivity|]. simpl. apply in_or_app.
  injection H as H. destruct b; [right|left]; apply in_map, IH, H.
Qed.
Lemma bools_in n l : In l (bools n) -> length l = n.
Proof.
  revert l. induction n as [|n IH]; intros l H; simpl in H; [destruct H as [<-|[]]; reflexivity|].
  apply in_app_or in H. destruct H as [H|H]; apply in_map_iff in H; destruct H as (m & <- & Hm); simpl; f_equal; auto.
Qed.
Lemma label_0 n : label n 0 = repeat false n.
Proof.
  unfold label. rewrite <- (map_id (repeat false n)).
  transitivity (map (fun _ : nat => false) (seq 0 n)); [apply map_ext; intros; apply Nat.bits_0|].
  rewrite map_id. generalize 0%nat. induction n as [|n IH]; intros a; simpl; [reflexivity|f_equal; apply IH].
Qed.
(** the labels are exactly the words over {a, d} of length num_axes other than a...a, each once *)
Theorem C08_labels_complete : forall n lab,
  NoDup (labels n) /\ (In lab (labels n) <-> length lab = n /\ lab <> repeat false n).
Proof.
  intros n lab. split; [apply labels_nodup|]. split.
  - intros H. apply in_map_iff in H. destruct H as (x & <- & Hx). apply in_seq in Hx. split; [apply label_length|].
    rewrite <- label_0. intros E. apply label_inj in E; [lia| |apply pow2_pos]. pose proof (pow2_pos n). lia.
  - intros [Hl Hne].
    assert (Hin : In lab (map (label n) (seq 0 (2 ^ n)))).
    { assert (Hincl : incl (bools n) (map (label n) (seq 0 (2 ^ n)))).
      { apply NoDup_length_incl.
        - apply NoDup_map_inj; [|apply seq_NoDup]. intros x y Hx Hy. apply in_seq in Hx. apply in_seq in Hy. apply label_inj; lia.
        - rewrite map_length, seq_length, bools_length. lia.
        - intros m Hm. apply in_map_iff in Hm. destruct Hm as (x & <- & _). apply in_bools, label_length. }
      apply Hincl, in_bools, Hl. }
    apply in_map_iff in Hin. destruct Hin as (x & <- & Hx). apply in_seq in Hx. apply in_map. apply in_seq.
    pose proof (pow2_pos n). assert (x <> 0%nat) by (intros ->; apply Hne, label_0). lia.
Qed.

Lemma flat_map_const_length {A B} (f : A -> list B) k l : (forall a, In a l -> length (f a) = k) -> length (flat_map f l) = (length l * k)%nat.
Proof.
  induction l as [|a l IH]; intros H; [reflexivity|]. simpl. rewrite app_length, IH by (intros; apply H; right; assumption).
  rewrite H by (left; reflexivity). lia.
Qed.
Lemma nth_error_flat_map {A B} (f : A -> list B) k : forall l i j a, (forall a, In a l -> length (f a) = k) ->
  nth_error l i = Some a -> (j < k)%nat -> nth_error (flat_map f l) (i * k + j) = nth_error (f a) j.
Proof.
  induction l as [|b l IH]; intros i j a H Hi Hj; [destruct i; discriminate|]. simpl.
  assert (Hb : length (f b) = k) by (apply H; left; reflexivity).
  destruct i as [|i]; simpl in Hi.
  - injection Hi as ->. simpl. apply nth_error_app1. lia.
  - rewrite nth_error_app2 by lia. rewrite Hb. replace (S i * k + j - k)%nat with (i * k + j)%nat by lia.
    apply IH; auto. intros c Hc. apply H. right. exact Hc.
Qed.
Lemma pack_slot {A} level num_axes (approx : A) detail lvl i lab : (1 <= lvl <= level)%nat ->
  nth_error (labels num_axes) i = Some lab ->
  nth_error (swt_pack level num_axes approx detail) (i + get_lvl_pos num_axes lvl) = Some (detail lvl lab).
Proof.
  intros Hl Hi. unfold swt_pack, get_lvl_pos. rewrite <- labels_length. set (k := length (labels num_axes)).
  replace (i + ((lvl - 1) * k + 1))%nat with (S ((lvl - 1) * k + i)) by lia. cbn [nth_error].
  assert (Hik : (i < k)%nat) by (apply nth_error_Some; congruence).
  rewrite (nth_error_flat_map (fun l => map (detail l) (labels num_axes)) k (seq 1 level) (lvl - 1) i lvl); auto.
  - rewrite nth_error_map, Hi. reflexivity.
  - intros; apply map_length.
  - rewrite (nth_error_nth' _ 0%nat) by (rewrite seq_length; lia). rewrite seq_nth by lia. f_equal. lia.
Qed.
(** a dictionary built from distinct keys *)
Lemma dict_lookup {A} (f : nat -> option A) lab ls : forall start acc, NoDup ls ->
  fold_left (fun acc ik => if label_eqb (snd ik) lab then f (fst ik) else acc) (combine (seq start (length ls)) ls) acc =
  match find (fun p => label_eqb (snd p) lab) (combine (seq start (length ls)) ls) with Some p => f (fst p) | None => acc end.
Proof.
  induction ls as [|a ls IH]; intros start acc Hnd; [reflexivity|]. inversion Hnd as [|? ? Ha Hnd']; subst.
  cbn [length seq combine fold_left find fst snd]. rewrite IH by exact Hnd'.
  destruct (label_eqb a lab) eqn:Ea; [|reflexivity]. unfold label_eqb in Ea.
  destruct (list_eq_dec Bool.bool_dec a lab) as [->|]; [clear Ea|discriminate].
  destruct (find _ _) as [p|] eqn:E; [|reflexivity]. exfalso. apply find_some in E. destruct E as [Hin Hp].
  destruct p as [i b]. apply in_combine_r in Hin. cbn [snd] in Hp. unfold label_eqb in Hp.
  destruct (list_eq_dec Bool.bool_dec b lab) as [->|]; [contradiction|discriminate].
Qed.
Lemma in_combine_seq {A} (ls : list A) : forall start i a, In (i, a) (combine (seq start (length ls)) ls) -> nth_error ls (i - start) = Some a /\ (start <= i)%nat.
Proof.
  induction ls as [|b ls IH]; intros start i a H; [destruct H|]. cbn [length seq combine] in H. destruct H as [E|H].
  - injection E as -> ->. rewrite Nat.sub_diag. split; [reflexivity|lia].
  - apply IH in H. destruct H as [H1 H2]. split; [|lia]. replace (i - start)%nat with (S (i - S start)) by lia. exact H1.
Qed.

(** Unpacking what was packed gives back every coefficient; the packed array has the advertised number of rows. *)
Theorem C08_pack_unpack : forall (A : Type) level num_axes (approx : A) (detail : nat -> list bool -> A),
  length (swt_pack level num_axes approx detail) = swt_rows level num_axes /\
  nth_error (swt_pack level num_axes approx detail) 0 = Some approx /\
  forall lvl lab, (1 <= lvl <= level)%nat -> In lab (labels num_axes) ->
    swt_unpack num_axes (swt_pack level num_axes approx detail) lvl lab = Some (detail lvl lab).
Proof.
  intros A level num_axes approx detail. split; [|split; [reflexivity|]].
  - unfold swt_pack, swt_rows. cbn [length]. rewrite (flat_map_const_length _ (2 ^ num_axes - 1)).
    + rewrite seq_length. lia.
    + intros lvl _. rewrite map_length. apply labels_length.
  - intros lvl lab Hl Hin. unfold swt_unpack.
    rewrite (dict_lookup (fun i => nth_error (swt_pack level num_axes approx detail) (i + get_lvl_pos num_axes lvl))) by apply labels_nodup.
    destruct (find _ _) as [[i b]|] eqn:E.
    + apply find_some in E. destruct E as [Hin' Hp]. cbn [fst snd] in *. unfold label_eqb in Hp.
      destruct (list_eq_dec Bool.bool_dec b lab) as [->|]; [|discriminate].
      apply in_combine_seq in Hin'. destruct Hin' as [Hn _]. rewrite Nat.sub_0_r in Hn. apply pack_slot; assumption.
    + exfalso. apply In_nth_error in Hin. destruct Hin as [i Hi].
      pose proof (find_none _ _ E (i, lab)) as Hf. cbn [snd] in Hf. unfold label_eqb in Hf.
      destruct (list_eq_dec Bool.bool_dec lab lab) as [_|]; [|congruence].
      assert (true = false); [|discriminate]. apply Hf.
      assert (Hk : (i < length (labels num_axes))%nat) by (apply nth_error_Some; congruence).
      apply (nth_error_nth _ _ (@nil bool)) in Hi. rewrite <- Hi.
      replace i with (nth i (seq 0 (length (labels num_axes))) 0%nat) at 1 by (rewrite seq_nth by lia; lia).
      rewrite <- combine_nth by (rewrite seq_length; reflexivity). apply nth_In. rewrite combine_length, seq_length. lia.
Qed.
(** every row of the packed array belongs to exactly one (level, label); so packing what was unpacked is lossless too *)
Theorem C08_slots : forall level num_axes row, (1 <= row < swt_rows level num_axes)%nat ->
  exists lvl i, (1 <= lvl <= level)%nat /\ (i < 2 ^ num_axes - 1)%nat /\ (row = i + get_lvl_pos num_axes lvl)%nat /\
    forall lvl' i', (1 <= lvl' <= level)%nat -> (i' < 2 ^ num_axes - 1)%nat -> (row = i' + get_lvl_pos num_axes lvl')%nat ->
      lvl' = lvl /\ i' = i.
Proof.
  intros level num_axes row H. unfold swt_rows, get_lvl_pos in *. set (k := (2 ^ num_axes - 1)%nat) in *.
  assert (Hk : (0 < k)%nat) by nia.
  exists (S ((row - 1) / k)), ((row - 1) mod k)%nat.
  pose proof (Nat.div_mod (row - 1) k ltac:(lia)) as E. pose proof (Nat.mod_upper_bound (row - 1) k ltac:(lia)) as Hm.
  assert ((row - 1) / k < level)%nat by (apply Nat.div_lt_upper_bound; lia).
  set (q := ((row - 1) / k)%nat) in *. set (r := ((row - 1) mod k)%nat) in *.
  split; [lia|]. split; [lia|]. split; [nia|]. intros lvl' i' Hl Hi Hr.
  assert (Hq : (row - 1 = k * (lvl' - 1) + i')%nat) by nia.
  pose proof (Nat.div_unique _ _ _ _ Hi Hq) as E1. pose proof (Nat.mod_unique _ _ _ _ Hi Hq) as E2. fold q in E1. fold r in E2. lia.
Qed.
Example C08_example : labels 2 = [[false; true]; [true; false]; [true; true]] /\ swt_rows 3 2 = 10%nat /\
  swt_unpack 2 (swt_pack 3 2 (0, [])%nat (fun lvl lab => (lvl, lab))) 2 [true; false] = Some (2%nat, [true; false]).
Proof. repeat split; reflexivity. Qed.

(** * C09 *)
(** what np.argsort returns for a list of distinct keys: the positions in increasing key order *)
Definition argsort_spec (keys order : list nat) : Prop :=
  Permutation order (seq 0 (length keys)) /\ StronglySorted le (map (fun i => nth i keys 0%nat) order).

Lemma sorted_perm_eq (l1 l2 : list nat) : StronglySorted le l1 -> StronglySorted le l2 -> Permutation l1 l2 -> l1 = l2.
Proof.
  intros H1. revert l2. induction H1 as [|a l1 H1 IH Ha]; intros l2 H2 P.
  - apply Permutation_nil in P. auto.
  - destruct l2 as [|b l2]; [apply Permutation_sym, Permutation_nil in P; discriminate|].
    inversion H2 as [|? ? H2' Hb]; subst.
    assert (a = b).
    { assert (Ia : In a (b :: l2)) by (eapply Permutation_in; [exact P|left; reflexivity]).
      assert (Ib : In b (a :: l1)) by (eapply Permutation_in; [apply Permutation_sym, P|left; reflexivity]).
      rewrite Forall_forall in Ha, Hb. destruct Ia as [->|Ia]; [reflexivity|]. destruct Ib as [->|Ib]; [reflexivity|].
      apply Ha in Ib. apply Hb in Ia. lia. }
    subst b. f_equal. apply IH; [exact H2'|]. eapply Permutation_cons_inv. exact P.
Qed.
Lemma seq_sorted n a : StronglySorted le (seq a n).
Proof.
  revert a. induction n as [|n IH]; intros a; simpl; constructor; auto. apply Forall_forall. intros x Hx. apply in_seq in Hx. lia.
Qed.
Lemma map_nth_seq (l : list nat) : map (fun i => nth i l 0%nat) (seq 0 (length l)) = l.
Proof.
  apply (nth_ext _ _ 0%nat 0%nat); [rewrite map_length, seq_length; reflexivity|].
  intros i Hi. rewrite map_length, seq_length in Hi.
  rewrite (nth_indep _ 0%nat ((fun i => nth i l 0%nat) 0%nat)) by (rewrite map_length, seq_length; exact Hi).
  rewrite (map_nth (fun i => nth i l 0%nat)), seq_nth by exact Hi. reflexivity.
Qed.
Lemma argsort_perm fwd bwd n : Permutation fwd (seq 0 n) -> argsort_spec fwd bwd ->
  length fwd = n /\ length bwd = n /\ forall k, (k < n)%nat -> nth (nth k bwd 0%nat) fwd 0%nat = k /\ (nth k bwd 0 < n)%nat.
Proof.
  intros P [Pb Hs]. assert (Hn : length fwd = n) by (rewrite (Permutation_length P), seq_length; reflexivity).
  assert (Hb : length bwd = n) by (rewrite (Permutation_length Pb), seq_length; exact Hn).
  split; [exact Hn|split; [exact Hb|]]. intros k Hk.
  assert (E : map (fun i => nth i fwd 0%nat) bwd = seq 0 n).
  { apply sorted_perm_eq; [exact Hs|apply seq_sorted|]. eapply Permutation_trans; [|exact P].
    pose proof (Permutation_map (fun i => nth i fwd 0%nat) Pb) as PM. rewrite map_nth_seq in PM. exact PM. }
  split.
  - apply (f_equal (fun l => nth k l 0%nat)) in E. rewrite seq_nth in E by exact Hk.
    rewrite (nth_indep _ 0%nat ((fun i => nth i fwd 0%nat) 0%nat)) in E by (rewrite map_length; lia).
    rewrite (map_nth (fun i => nth i fwd 0%nat)) in E. exact E.
  - assert (Hin : In (nth k bwd 0%nat) bwd) by (apply nth_In; lia).
    apply (Permutation_in _ Pb) in Hin. apply in_seq in Hin. lia.
Qed.
Lemma index_of_nth perm k : NoDup perm -> (k < length perm)%nat -> index_of (nth k perm 0%nat) perm = k.
Proof.
  intros H. revert k. induction H as [|a l Ha H IH]; intros k Hk; simpl in Hk; [lia|]. destruct k as [|k]; simpl.
  - rewrite Nat.eqb_refl. reflexivity.
  - destruct (Nat.eqb_spec a (nth k l 0%nat)) as [E|_]; [exfalso; apply Ha; rewrite E; apply nth_In; lia|]. f_equal. apply IH. lia.
Qed.
Lemma fwd_is_perm nd rows cols : NoDup (rows ++ cols) -> (forall a, In a (rows ++ cols) -> (a < nd)%nat) ->
  Permutation (fwd_transpose nd rows cols) (seq 0 nd).
Proof.
  intros Hnd Hlt. apply NoDup_Permutation; [|apply seq_NoDup|].
  - unfold fwd_transpose, invariant_dims. set (ap := rows ++ cols) in *.
    assert (G : forall l, NoDup l -> NoDup (filter (fun d => negb (existsb (Nat.eqb d) ap)) l ++ ap)).
    { intros l Hl. induction Hl as [|d l Hd Hl IH]; [exact Hnd|]. simpl. destruct (existsb (Nat.eqb d) ap) eqn:E; simpl; [exact IH|].
      constructor; [|exact IH]. intros Hin. apply in_app_or in Hin. destruct Hin as [Hin|Hin].
      - apply filter_In in Hin. tauto.
      - assert (existsb (Nat.eqb d) ap = true); [|congruence]. apply existsb_exists. exists d. split; [exact Hin|apply Nat.eqb_refl]. }
    apply G, seq_NoDup.
  - intros d. unfold fwd_transpose, invariant_dims. rewrite in_app_iff, filter_In, in_seq. split.
    + intros [H|H]; [tauto|apply Hlt in H; lia].
    + intros H. destruct (existsb (Nat.eqb d) (rows ++ cols)) eqn:E; [right|left; auto].
      apply existsb_exists in E. destruct E as (e & He & Hde). apply Nat.eqb_eq in Hde. subst e. exact He.
Qed.
Lemma size_app s t : size (s ++ t) = (size s * size t)%nat.
Proof. unfold size. induction s as [|n s IH]; simpl; [lia|]. rewrite IH. lia. Qed.
Lemma bwd_fwd_size s rows cols : size (bwd_shape s rows cols) = size (fwd_shape s rows cols).
Proof. unfold bwd_shape, fwd_shape. rewrite !size_app. f_equal. unfold size at 3. cbn [fold_right]. lia. Qed.
Lemma fwd_T_shape s rows cols : transpose_shape (fwd_transpose (length s) rows cols) s = bwd_shape s rows cols.
Proof. unfold fwd_transpose, bwd_shape, transpose_shape. rewrite !map_app. reflexivity. Qed.

Definition svd_axes (nd : nat) (rows cols : list nat) : Prop := NoDup (rows ++ cols) /\ forall a, In a (rows ++ cols) -> (a < nd)%nat.

Lemma bwd_index s rows cols bwd l : svd_axes (length s) rows cols -> argsort_spec (fwd_transpose (length s) rows cols) bwd -> inb s l ->
  inb (bwd_shape s rows cols) (map (fun d => nth (index_of d bwd) l 0%nat) (seq 0 (length bwd))) /\
  map (fun d => nth (index_of d (fwd_transpose (length s) rows cols)) (map (fun d => nth (index_of d bwd) l 0%nat) (seq 0 (length bwd))) 0%nat)
    (seq 0 (length (fwd_transpose (length s) rows cols))) = l.
Proof.
  intros [Hnd Hlt] Hb Hl. pose proof (fwd_is_perm _ _ _ Hnd Hlt) as P. set (fwd := fwd_transpose (length s) rows cols) in *.
  destruct (argsort_perm fwd bwd (length s) P Hb) as (Lf & Lb & Hinv).
  assert (NDf : NoDup fwd) by (eapply Permutation_NoDup; [apply Permutation_sym, P|apply seq_NoDup]).
  assert (NDb : NoDup bwd) by (destruct Hb as [Pb _]; eapply Permutation_NoDup; [apply Permutation_sym, Pb|apply seq_NoDup]).
  rewrite Lf, Lb. pose proof (inb_length s l Hl) as Ll.
  assert (Hfl : forall k, (k < length s)%nat -> (nth k fwd 0 < length s)%nat).
  { intros k Hk. assert (In (nth k fwd 0%nat) fwd) by (apply nth_In; lia). eapply Permutation_in in H; [|exact P]. apply in_seq in H. lia. }
  assert (Hif : forall d, (d < length s)%nat -> index_of d fwd = nth d bwd 0%nat).
  { intros d Hd. destruct (Hinv d Hd) as [E Hd']. rewrite <- E at 1. apply index_of_nth; [exact NDf|lia]. }
  assert (Hib : forall k, (k < length s)%nat -> index_of k bwd = nth k fwd 0%nat).
  { intros k Hk. pose proof (Hfl k Hk) as Hf. destruct (Hinv (nth k fwd 0%nat) Hf) as [E Hf'].
    (* fwd[bwd[fwd[k]]] = fwd[k], so bwd[fwd[k]] = k *)
    assert (E2 : nth (nth k fwd 0%nat) bwd 0%nat = k) by (apply (proj1 (NoDup_nth fwd 0%nat) NDf); lia).
    rewrite <- E2 at 1. apply index_of_nth; [exact NDb|lia]. }
  assert (nthm : forall k, (k < length s)%nat -> nth k (map (fun d => nth (index_of d bwd) l 0%nat) (seq 0 (length s))) 0%nat = nth (nth k fwd 0%nat) l 0%nat).
  { intros k Hk. rewrite (nth_indep _ 0%nat ((fun d => nth (index_of d bwd) l 0%nat) 0%nat)) by (rewrite map_length, seq_length; lia).
    rewrite (map_nth (fun d => nth (index_of d bwd) l 0%nat)), seq_nth by exact Hk. cbn [plus]. rewrite Hib by exact Hk. reflexivity. }
  split.
  - rewrite <- fwd_T_shape. fold fwd. unfold inb, transpose_shape.
    assert (G : forall m n (f g : nat -> nat), (forall k, (m <= k < m + n)%nat -> (f k < g k)%nat) -> Forall2 lt (map f (seq m n)) (map g (seq m n))).
    { intros m n f g. revert m. induction n as [|n IH]; intros m H; simpl; constructor; [apply H; lia|]. apply IH. intros; apply H; lia. }
    assert (Efwd : map (fun p => nth p s 0%nat) fwd = map (fun k => nth (nth k fwd 0%nat) s 0%nat) (seq 0 (length s))).
    { pose proof (map_nth_seq fwd) as M. rewrite Lf in M. rewrite <- M at 1. rewrite map_map. reflexivity. }
    rewrite Efwd. apply G. intros k Hk. rewrite Hib by lia. apply inb_nth; [exact Hl|]. apply Hfl. lia.
  - transitivity (map (fun d => nth d l 0%nat) (seq 0 (length s))); [|rewrite <- Ll; apply map_nth_seq].
    apply map_ext_in. intros d Hd. apply in_seq in Hd. rewrite Hif by lia. destruct (Hinv d ltac:(lia)) as [E Hd'].
    rewrite nthm by exact Hd'. rewrite E. reflexivity.
Qed.

(** The forward permutation and reshape, then the backward ones, restore every array. *)
Theorem C09_layout_roundtrip : forall s rows cols bwd x l,
  svd_axes (length s) rows cols -> argsort_spec (fwd_transpose (length s) rows cols) bwd -> inb s l ->
  svd_backward s rows cols bwd (svd_forward s rows cols x) l = x l.
Proof.
  intros s rows cols bwd x l Hax Hb Hl. destruct (bwd_index s rows cols bwd l Hax Hb Hl) as [Hm Ex].
  unfold svd_backward, svd_forward, np_transpose at 1, np_reshape. rewrite fwd_T_shape.
  set (m := map (fun d => nth (index_of d bwd) l 0%nat) (seq 0 (length bwd))) in *.
  rewrite flat_unflat by (rewrite <- bwd_fwd_size; apply flat_lt, Hm). rewrite unflat_flat by exact Hm.
  unfold np_transpose. rewrite Ex. reflexivity.
Qed.
Theorem C09_rescale : forall M N r U sv Vt i j, (0 < M)%nat -> (0 < N)%nat ->
  let '(U', sv', Vt') := rescale_svd M N U sv Vt in
  inverse_svd r U' sv' Vt' i j = inverse_svd r U sv Vt i j.
Proof.
  intros M N r U sv Vt i j HM HN. unfold rescale_svd, inverse_svd. apply rsum_ext. intros k _.
  assert (0 < INR M) by (apply lt_0_INR; lia). assert (0 < INR N) by (apply lt_0_INR; lia).
  rewrite sqrt_mult by lra. assert (0 < sqrt (INR M)) by (apply sqrt_lt_R0; lra). assert (0 < sqrt (INR N)) by (apply sqrt_lt_R0; lra).
  field. lra.
Qed.
Lemma rescale_svd_inverse M N r U sv Vt i j : (0 < M)%nat -> (0 < N)%nat ->
  inverse_svd r (fst (fst (rescale_svd M N U sv Vt))) (snd (fst (rescale_svd M N U sv Vt))) (snd (rescale_svd M N U sv Vt)) i j = inverse_svd r U sv Vt i j.
Proof. intros HM HN. apply (C09_rescale M N r U sv Vt i j HM HN). Qed.

(** np.linalg.svd, as far as this property needs it: the product of the factors is the matrix. *)
Definition svd_contract (svd : nat -> nat -> (nat -> nat -> R) -> factors) : Prop :=
  forall M N A i j, (i < M)%nat -> (j < N)%nat ->
    let '(U, sv, Vt) := svd M N A in inverse_svd (Nat.min M N) U sv Vt i j = A i j.

Lemma inb_app s t l : inb (s ++ t) l -> exists l1 l2, l = l1 ++ l2 /\ inb s l1 /\ inb t l2.
Proof.
  revert l. induction s as [|n s IH]; intros l H; simpl in H.
  - exists [], l. split; [reflexivity|split; [constructor|exact H]].
  - inversion H as [|i ? l' ? Hi Hl']; subst. destruct (IH l' Hl') as (l1 & l2 & -> & H1 & H2).
    exists (i :: l1), l2. split; [reflexivity|split; [constructor; assumption|exact H2]].
Qed.
(** The whole operator: adjoint after direct is the identity, with and without rescaling. *)
Theorem C09_svd_operator_roundtrip : forall svd rescale s rows cols bwd x l,
  svd_contract svd -> svd_axes (length s) rows cols -> argsort_spec (fwd_transpose (length s) rows cols) bwd -> inb s l ->
  svd_op_adjoint s rows cols bwd (svd_op_direct svd rescale s rows cols x) l = x l.
Proof.
  intros svd rescale s rows cols bwd x l Hsvd Hax Hb Hl.
  rewrite <- (C09_layout_roundtrip s rows cols bwd x l Hax Hb Hl).
  destruct (bwd_index s rows cols bwd l Hax Hb Hl) as [Hm _].
  unfold svd_op_adjoint, svd_backward, np_transpose at 1 2, np_reshape at 1 2.
  set (m := map (fun d => nth (index_of d bwd) l 0%nat) (seq 0 (length bwd))) in *.
  assert (Hu : inb (fwd_shape s rows cols) (unflat (fwd_shape s rows cols) (flat (bwd_shape s rows cols) m))).
  { apply unflat_inb. rewrite <- bwd_fwd_size. apply flat_lt, Hm. }
  set (u := unflat (fwd_shape s rows cols) (flat (bwd_shape s rows cols) m)) in *.
  unfold fwd_shape in Hu. apply inb_app in Hu. destruct Hu as (b & ij & Eu & Hbb & Hij).
  inversion Hij as [|i ? t ? Hi Ht]; subst. inversion Ht as [|j ? t' ? Hj Ht']; subst. inversion Ht'; subst. rewrite Eu.
  assert (L : length (b ++ [i; j]) = (length b + 2)%nat) by (rewrite app_length; reflexivity). rewrite L.
  replace (length b + 2 - 2)%nat with (length b + 0)%nat by lia. rewrite firstn_app_2. simpl firstn. rewrite app_nil_r, Nat.add_0_r.
  rewrite !app_nth2 by lia. rewrite Nat.sub_diag. replace (S (length b) - length b)%nat with 1%nat by lia. cbn [nth].
  unfold svd_op_direct. set (M := size (transpose_shape rows s)) in *. set (N := size (transpose_shape cols s)) in *.
  pose proof (Hsvd M N (fun i j => svd_forward s rows cols x (b ++ [i; j])) i j Hi Hj) as HS.
  destruct (svd M N _) as [[U sv] Vt]. destruct rescale; [|exact HS].
  pose proof (C09_rescale M N (Nat.min M N) U sv Vt i j ltac:(lia) ltac:(lia)) as HR.
  destruct (rescale_svd M N U sv Vt) as [[U' sv'] Vt']. rewrite HR. exact HS.
Qed.
(** non-vacuity: a 3-axis array decomposed with rows (2) and columns (0), so a genuinely non-trivial order [1;2;0] *)
Example C09_example : svd_axes 3 [2%nat] [0%nat] /\ fwd_transpose 3 [2%nat] [0%nat] = [1; 2; 0]%nat /\ argsort_spec [1; 2; 0]%nat [2; 0; 1]%nat.
Proof.
  split; [|split; [reflexivity|]].
  - split; [repeat constructor; simpl; intuition lia|]. simpl. intuition lia.
  - split.
    + simpl. apply NoDup_Permutation; [repeat constructor; simpl; intuition lia|repeat constructor; simpl; intuition lia|simpl; intuition lia].
    + simpl. repeat constructor.
Qed.
