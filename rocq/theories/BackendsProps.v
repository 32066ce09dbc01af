(** C52-C54, C109: native handle management of the ASTRA backends, for every history of method calls and every pattern of
    failing native calls. *)
From Coq Require Import Lia.
From Verif Require Import Sums PyErr GeometryModel BackendsModel.
Import ListNotations.

(** * Well-formed states *)
Definition held (b : bk) : list nat := match k_pid b with Some l => l | None => [] end.
Definition wf (n : native) : Prop :=
  NoDup (map fst (n_proj n)) /\ Forall (fun p => (fst p < n_next n)%nat) (n_proj n) /\
  Forall (fun h => (h < n_next n)%nat) (n_data n) /\ Forall (fun h => (h < n_next n)%nat) (n_algo n).
(** the projectors held by a ready backend: one per angle when requested, then the one for all the angles *)
Definition expected (b : bk) : list desc :=
  (if k_ind b then match k_gind b with Some n => map DOne (seq 0 n) | None => [] end else []) ++ [DAll].
Record Inv (s : st) : Prop := mkInv {
  i_bad : n_bad (fst s) = false;
  i_wf : wf (fst s);
  i_nd : NoDup (held (snd s));
  i_in : incl (held (snd s)) (map fst (n_proj (fst s)));
  i_geo : k_geo (snd s) = true -> k_pid (snd s) <> None;
  i_nr : k_ready (snd s) = false -> k_ind (snd s) = false -> held (snd s) = [];
  i_rd : k_ready (snd s) = true -> k_pid (snd s) <> None /\ (k_ind (snd s) = true -> k_gind (snd s) <> None) /\
         map (fun h => lookup h (n_proj (fst s))) (held (snd s)) = map Some (expected (snd s)) }.

Lemma Inv0 : Inv (native0, bk0).
Proof.
  constructor; simpl; auto; try (constructor; fail); try discriminate.
  - repeat split; constructor.
  - intros x [].
Qed.

(** [n'] extends [n] with freshly created projectors [new] (some of them possibly lost) *)
Definition ext (n n' : native) (new : list (nat * desc)) : Prop :=
  wf n' /\ n_proj n' = new ++ n_proj n /\ n_data n' = n_data n /\ n_algo n' = n_algo n /\ n_bad n' = n_bad n /\
  n_runs n' = n_runs n /\ (n_next n <= n_next n')%nat /\ Forall (fun p => (n_next n <= fst p)%nat) new.
Lemma Forall_lt_mono n m l : (n <= m)%nat -> Forall (fun h => (h < n)%nat) l -> Forall (fun h => (h < m)%nat) l.
Proof. intros H. apply Forall_impl. intros; lia. Qed.
Lemma ext_refl n : wf n -> ext n n [].
Proof. intros H. repeat split; auto; try apply H; constructor. Qed.
Lemma ext_trans n1 n2 n3 a b : ext n1 n2 a -> ext n2 n3 b -> ext n1 n3 (b ++ a).
Proof.
  intros (W1 & P1 & D1 & A1 & B1 & R1 & L1 & F1) (W2 & P2 & D2 & A2 & B2 & R2 & L2 & F2).
  split; [assumption|]. rewrite P2, P1, app_assoc, D2, D1, A2, A1, B2, B1, R2, R1. repeat split; auto; [lia|].
  apply Forall_app. split; [|assumption]. eapply Forall_impl; [|exact F2]. intros; simpl in *; lia.
Qed.
Lemma lookup_app_fresh h new l : ~ In h (map fst new) -> lookup h (new ++ l) = lookup h l.
Proof.
  intros H. unfold lookup. induction new as [|[x d] new IH]; [reflexivity|]. simpl.
  destruct (Nat.eqb_spec x h); [exfalso; apply H; left; assumption|]. apply IH. intros Hi; apply H; right; assumption.
Qed.
Lemma ext_lookup n n' new h : ext n n' new -> In h (map fst (n_proj n)) -> wf n -> lookup h (n_proj n') = lookup h (n_proj n).
Proof.
  intros (_ & P & _ & _ & _ & _ & _ & F) Hin (_ & L & _). rewrite P. apply lookup_app_fresh.
  intros Hn. apply in_map_iff in Hin as ([x d] & <- & Hx). apply in_map_iff in Hn as ([y e] & E & Hy). simpl in *. subst y.
  rewrite Forall_forall in F, L. specialize (F _ Hy). specialize (L _ Hx). simpl in *. lia.
Qed.

Section WithFail.
Variable fail : nat -> bool.

Lemma create_spec d s s' r : wf (fst s) -> create_projector fail d s = (s', r) ->
  snd s' = snd s /\
  match r with
  | inr h => ext (fst s) (fst s') [(h, d)] /\ h = n_next (fst s) /\ fail (n_call (fst s)) = false
  | inl e => e = Native /\ ext (fst s) (fst s') [] /\ fail (n_call (fst s)) = true
  end.
Proof.
  intros (W1 & W2 & W3 & W4) H. unfold create_projector in H. destruct (fail (n_call (fst s))) eqn:Ef; injection H as <- <-.
  - split; [reflexivity|]. split; [reflexivity|]. split; [|reflexivity]. repeat split; auto; constructor.
  - split; [reflexivity|]. split; [|split; reflexivity]. repeat split; simpl; auto.
    + constructor; [|assumption]. intros Hi. apply in_map_iff in Hi as (p & E & Hp). rewrite Forall_forall in W2. specialize (W2 p Hp). lia.
    + constructor; [simpl; lia|]. eapply Forall_impl; [|exact W2]. intros; simpl in *; lia.
    + eapply Forall_lt_mono; [|exact W3]. lia.
    + eapply Forall_lt_mono; [|exact W4]. lia.
Qed.
Lemma create_list_spec ds : forall s s' r, wf (fst s) -> create_list fail ds s = (s', r) ->
  snd s' = snd s /\ exists new, ext (fst s) (fst s') new /\
  match r with
  | inr hs => new = rev (combine hs ds) /\ List.length hs = List.length ds
  | inl e => e = Native /\ exists k, fail k = true
  end.
Proof.
  induction ds as [|d ds IH]; intros s s' r W H.
  - injection H as <- <-. split; [reflexivity|]. exists []. split; [apply ext_refl; assumption|]. split; reflexivity.
  - simpl in H. unfold bind at 1 in H. destruct (create_projector fail d s) as [s1 r1] eqn:E1.
    destruct (create_spec d s s1 r1 W E1) as [B1 S1]. destruct r1 as [e|h].
    + injection H as <- <-. destruct S1 as (-> & X & F). split; [assumption|]. exists []. split; [assumption|]. split; [reflexivity|eauto].
    + destruct S1 as (X1 & Hh & F1). assert (W1 : wf (fst s1)) by apply X1.
      unfold bind in H. destruct (create_list fail ds s1) as [s2 r2] eqn:E2.
      destruct (IH s1 s2 r2 W1 E2) as (B2 & new & X2 & S2). destruct r2 as [e|t].
      * injection H as <- <-. split; [congruence|]. exists (new ++ [(h, d)]). split; [eapply ext_trans; eassumption|assumption].
      * injection H as <- <-. split; [congruence|]. exists (new ++ [(h, d)]). split; [eapply ext_trans; eassumption|].
        destruct S2 as (-> & L). split; simpl; [reflexivity|congruence].
Qed.

Lemma filter_lookup h h' l : h <> h' -> lookup h' (filter (fun p => negb (Nat.eqb (fst p) h)) l) = lookup h' l.
Proof.
  intros Hn. unfold lookup. induction l as [|[x d] l IH]; [reflexivity|]. simpl.
  destruct (Nat.eqb_spec x h) as [->|]; simpl.
  - destruct (Nat.eqb_spec h h'); [congruence|]. exact IH.
  - destruct (Nat.eqb x h'); [reflexivity|exact IH].
Qed.
Lemma in_filter_other h h' (l : list (nat * desc)) : h <> h' -> In h' (map fst l) ->
  In h' (map fst (filter (fun p => negb (Nat.eqb (fst p) h)) l)).
Proof.
  intros Hn Hi. apply in_map_iff in Hi as ([x d] & E & Hx). simpl in E. subst x. apply in_map_iff. exists (h', d). split; [reflexivity|].
  apply filter_In. split; [assumption|]. simpl. destruct (Nat.eqb_spec h' h); [congruence|reflexivity].
Qed.
Lemma NoDup_map_filter (f : nat * desc -> bool) l : NoDup (map fst l) -> NoDup (map fst (filter f l)).
Proof.
  induction l as [|p l IH]; simpl; intros H; [constructor|]. inversion H as [|? ? H1 H2]; subst.
  destruct (f p); simpl; [|auto]. constructor; [|auto]. intros Hi. apply H1.
  apply in_map_iff in Hi as (q & E & Hq). apply filter_In in Hq as [Hq _]. apply in_map_iff. exists q. auto.
Qed.
(** dispose deletes exactly the held handles *)
Lemma delete_all_spec l : forall s s' r, wf (fst s) -> NoDup l -> incl l (map fst (n_proj (fst s))) -> delete_all l s = (s', r) ->
  r = inr tt /\ snd s' = snd s /\ wf (fst s') /\ n_bad (fst s') = n_bad (fst s) /\
  n_data (fst s') = n_data (fst s) /\ n_algo (fst s') = n_algo (fst s) /\ n_runs (fst s') = n_runs (fst s) /\ n_call (fst s') = n_call (fst s) /\
  forall p, In p (n_proj (fst s')) <-> In p (n_proj (fst s)) /\ ~ In (fst p) l.
Proof using.
  clear fail. induction l as [|h l IH]; intros s s' r W Hnd Hin H.
  - injection H as <- <-. do 8 (split; [first [reflexivity|assumption]|]). intros p. simpl. tauto.
  - simpl in H. unfold bind, delete_projector in H. inversion Hnd as [|? ? Hh Hnd']; subst.
    match type of H with delete_all l ?t = _ => set (s1 := t) in * end.
    assert (Hb : existsb (fun p => Nat.eqb (fst p) h) (n_proj (fst s)) = true).
    { apply existsb_exists. specialize (Hin h (or_introl eq_refl)). apply in_map_iff in Hin as (p & E & Hp). exists p. split; [assumption|].
      apply Nat.eqb_eq. assumption. }
    destruct W as (W1 & W2 & W3 & W4).
    assert (Ws1 : wf (fst s1)).
    { repeat split; simpl; auto.
      - apply NoDup_map_filter; assumption.
      - rewrite Forall_forall in *. intros p Hp. apply filter_In in Hp as [Hp _]. apply W2. assumption. }
    assert (Hin1 : incl l (map fst (n_proj (fst s1)))).
    { intros x Hx. simpl. apply in_filter_other; [intros ->; contradiction|]. apply Hin. right. assumption. }
    destruct (IH s1 s' r Ws1 Hnd' Hin1 H) as (E1 & E2 & E3 & E4 & E5 & E6 & E7 & E8 & E9).
    assert (Eb1 : n_bad (fst s1) = n_bad (fst s)) by (unfold s1; simpl; rewrite Hb, Bool.orb_false_r; reflexivity).
    do 3 (split; [first [assumption|congruence]|]). split; [congruence|].
    do 4 (split; [assumption|]).
    intros p. rewrite E9. unfold s1. simpl. rewrite filter_In.
    destruct (Nat.eqb_spec (fst p) h) as [E|E]; simpl; split; intros; try (intuition congruence).
Qed.

Lemma dispose_spec s s' r : Inv s -> dispose s = (s', r) ->
  (k_pid (snd s) = None /\ s' = s /\ r = inl (Py AttributeError)) \/
  (r = inr tt /\ wf (fst s') /\ n_bad (fst s') = false /\ n_data (fst s') = n_data (fst s) /\ n_algo (fst s') = n_algo (fst s) /\
   n_runs (fst s') = n_runs (fst s) /\
   (forall p, In p (n_proj (fst s')) <-> In p (n_proj (fst s)) /\ ~ In (fst p) (held (snd s))) /\
   snd s' = mkB (Some []) false (k_geo (snd s)) (k_ind (snd s)) (k_gind (snd s)) (k_gall (snd s))).
Proof using.
  intros I H. unfold dispose, bind, get_bk in H. simpl in H. destruct (k_pid (snd s)) as [l|] eqn:El.
  - right. destruct (delete_all l s) as [s1 r1] eqn:E1. pose proof (i_nd _ I) as Hn. pose proof (i_in _ I) as Hi.
    unfold held in Hn, Hi |- *. rewrite El in Hn, Hi |- *.
    destruct (delete_all_spec l s s1 r1 (i_wf _ I) Hn Hi E1) as (-> & B & W & Bd & D & A & R & _ & P).
    unfold set_bk in H. simpl in H. injection H as <- <-. simpl. rewrite B. rewrite (i_bad _ I) in Bd.
    do 6 (split; [first [assumption|reflexivity]|]). split; [exact P|reflexivity].
  - left. injection H as <- <-. auto.
Qed.
Lemma Inv_dispose s s' r : Inv s -> dispose s = (s', r) -> Inv s'.
Proof using.
  intros I H. destruct (dispose_spec s s' r I H) as [(_ & -> & _)|(_ & W & B & _ & _ & _ & _ & E)]; [assumption|].
  constructor; auto; rewrite ?E; simpl; auto; try constructor; try discriminate. intros x [].
Qed.

Lemma set_bk_eq f s : set_bk f s = ((fst s, f (snd s)), inr tt).
Proof. reflexivity. Qed.

Lemma Inv_init n ind pre post s s' r : Inv s -> initialize_geometry n ind pre post s = (s', r) -> Inv s'.
Proof using.
  intros I H. unfold initialize_geometry in H. destruct pre; [injection H as <- <-; assumption|].
  unfold bind at 1 in H. rewrite set_bk_eq in H. unfold bind at 1 in H. rewrite set_bk_eq in H. cbn [fst snd] in H.
  unfold bind at 1 in H. match type of H with context [dispose ?t] => set (s1 := t) in * end.
  destruct (dispose s1) as [s2 r2] eqn:E2.
  assert (I1 : Inv s2).
  { unfold dispose, bind, get_bk in E2. simpl in E2. unfold ret, set_bk in E2. simpl in E2. injection E2 as <- <-.
    constructor; simpl; auto; try constructor; try discriminate; try apply I. intros x []. }
  assert (K2 : snd s2 = mkB (Some []) false true ind (k_gind (snd s)) (k_gall (snd s))).
  { unfold dispose, bind, get_bk in E2. simpl in E2. unfold ret, set_bk in E2. simpl in E2. injection E2 as <- <-. reflexivity. }
  destruct r2 as [e|[]]; [injection H as <- <-; assumption|].
  destruct post; [injection H as <- <-; assumption|]. rewrite set_bk_eq in H. injection H as <- <-.
  destruct I1 as [J1 J2 J3 J4 J5 J6 J7]. rewrite K2 in *. constructor; simpl in *; auto; discriminate.
Qed.

Lemma NoDup_combine_keys (hs : list nat) (ds : list desc) : List.length hs = List.length ds -> map fst (combine hs ds) = hs.
Proof. revert ds. induction hs; intros [|d ds] H; simpl in *; try discriminate; auto. f_equal. auto. Qed.
Lemma lookup_in h d l : NoDup (map fst l) -> In (h, d) l -> lookup h l = Some d.
Proof.
  unfold lookup. induction l as [|[x e] l IH]; intros Hn Hi; [destruct Hi|]. inversion Hn as [|? ? Hx Hn']; subst. simpl.
  destruct Hi as [E|Hi].
  - injection E as -> ->. rewrite Nat.eqb_refl. reflexivity.
  - destruct (Nat.eqb_spec x h) as [->|]; [|auto]. exfalso. apply Hx. apply in_map_iff. exists (h, d). auto.
Qed.
Lemma lookups_combine (hs : list nat) (ds : list desc) (l : list (nat * desc)) : List.length hs = List.length ds ->
  (forall p, In p (combine hs ds) -> In p l) -> NoDup (map fst l) ->
  map (fun h => lookup h l) hs = map Some ds.
Proof.
  revert ds. induction hs as [|h hs IH]; intros [|d ds] HL Hs Hn; simpl in *; try discriminate; [reflexivity|].
  f_equal; [apply lookup_in; auto|]. apply IH; auto.
Qed.

(** make_ready: either it succeeds and the backend holds the expected projectors, or a native creation failed or the geometry
    was never set.  Data objects, algorithms and the run log are untouched. *)
Lemma ready_spec s s' r : Inv s -> make_ready fail s = (s', r) ->
  Inv s' /\ n_data (fst s') = n_data (fst s) /\ n_algo (fst s') = n_algo (fst s) /\ n_runs (fst s') = n_runs (fst s) /\
  k_ind (snd s') = k_ind (snd s) /\ k_gind (snd s') = k_gind (snd s) /\ k_geo (snd s') = k_geo (snd s) /\ k_gall (snd s') = k_gall (snd s) /\
  (exists new, n_proj (fst s') = new ++ n_proj (fst s)) /\
  (r = inr tt -> k_ready (snd s') = true) /\
  (k_ready (snd s) = true -> s' = s /\ r = inr tt) /\
  ((forall k, fail k = false) -> held (snd s) = [] \/ k_ready (snd s) = true ->
     forall x, In x (map fst (n_proj (fst s'))) -> In x (held (snd s')) \/ In x (map fst (n_proj (fst s))) ) /\
  ((forall k, fail k = false) -> k_pid (snd s) <> None -> k_geo (snd s) = true -> k_gall (snd s) = true ->
     (k_ind (snd s) = true -> k_gind (snd s) <> None) -> r = inr tt).
Proof.
  intros I H. unfold make_ready in H. unfold bind at 1 in H. unfold get_bk at 1 in H. cbn iota beta in H.
  destruct (k_ready (snd s)) eqn:Er.
  { (* already ready *)
    unfold bind, ret in H. rewrite set_bk_eq in H. injection H as <- <-.
    assert (E : (fst s, mkB (k_pid (snd s)) true (k_geo (snd s)) (k_ind (snd s)) (k_gind (snd s)) (k_gall (snd s))) = s).
    { destruct s as [n [a b c d e f]]. simpl in *. subst b. reflexivity. }
    rewrite E. split; [assumption|]. do 7 (split; [reflexivity|]). split; [exists []; reflexivity|].
    split; [intros; assumption|]. split; [auto|]. split; [intros _ _ x Hx; right; assumption|]. reflexivity. }
  destruct (k_geo (snd s)) eqn:Eg; simpl negb in H.
  2:{ unfold bind, raise in H. injection H as <- <-. split; [assumption|]. do 5 (split; [reflexivity|]). split; [assumption|]. split; [reflexivity|].
      split; [exists []; reflexivity|]. split; [discriminate|]. split; [discriminate|]. split; [intros; right; assumption|]. discriminate. }
  (* individual projectors *)
  set (mi := if k_ind (snd s) then match k_gind (snd s) with Some n => l <- create_list fail (map DOne (seq 0 n));; set_pid l | None => raise (Py AttributeError) end else ret tt) in H.
  assert (Hi : exists s1 r1, mi s = (s1, r1) /\ exists new, ext (fst s) (fst s1) new /\
     match r1 with
     | inl e => snd s1 = snd s /\ (e = Native /\ (exists k, fail k = true) \/ (k_ind (snd s) = true /\ k_gind (snd s) = None))
     | inr _ => (k_ind (snd s) = false /\ s1 = s) \/
        (k_ind (snd s) = true /\ exists n hs, k_gind (snd s) = Some n /\ List.length hs = n /\ new = rev (combine hs (map DOne (seq 0 n))) /\
          snd s1 = mkB (Some hs) (k_ready (snd s)) (k_geo (snd s)) (k_ind (snd s)) (k_gind (snd s)) (k_gall (snd s)))
     end).
  { unfold mi. destruct (k_ind (snd s)) eqn:Ei.
    - destruct (k_gind (snd s)) as [n|] eqn:En.
      + unfold bind. destruct (create_list fail (map DOne (seq 0 n)) s) as [s1 r1] eqn:E1.
        destruct (create_list_spec _ s s1 r1 (i_wf _ I) E1) as (B1 & new & X1 & S1). destruct r1 as [e|hs].
        * eexists. eexists. split; [reflexivity|]. exists new. split; [assumption|]. split; [assumption|]. left. assumption.
        * unfold set_pid. rewrite set_bk_eq. eexists. eexists. split; [reflexivity|]. exists new. split; [exact X1|]. right. split; [reflexivity|].
          destruct S1 as (Hnew & L). rewrite map_length, seq_length in L. exists n, hs. repeat split; auto. simpl. rewrite B1, Ei, En. reflexivity.
      + eexists. eexists. split; [reflexivity|]. exists []. split; [apply ext_refl, I|]. split; [reflexivity|]. right; auto.
    - eexists. eexists. split; [reflexivity|]. exists []. split; [apply ext_refl, I|]. left; auto. }
  destruct Hi as (s1 & r1 & Em & new & X & Hr1).
  unfold bind at 1 in H. unfold bind at 1 in H. rewrite Em in H.
  destruct X as (W1 & P1 & D1 & A1 & B1 & R1 & L1 & F1). pose proof (i_bad _ I) as Hbad. pose proof (i_wf _ I) as W0.
  assert (X : ext (fst s) (fst s1) new) by (repeat split; auto; apply W1).
  assert (Hincl : incl (held (snd s)) (map fst (n_proj (fst s1)))).
  { intros x Hx. rewrite P1, map_app. apply in_or_app. right. apply (i_in _ I). assumption. }
  destruct r1 as [e|u].
  { destruct Hr1 as [Hs1 He]. injection H as <- <-.
    split. { constructor; rewrite ?Hs1; auto; try congruence; try apply I. }
    do 3 (split; [assumption|]). rewrite Hs1. do 2 (split; [reflexivity|]). split; [assumption|]. split; [reflexivity|]. split; [exists new; assumption|].
    split; [discriminate|]. split; [congruence|]. split.
    - intros Hf. destruct He as [(_ & k & Hk)|(Ha & Hb)]; [rewrite Hf in Hk; discriminate|].
      intros _ x Hx. right. unfold mi in Em. rewrite Ha, Hb in Em. injection Em as <-. assumption.
    - intros Hf _ _ _ Hind. destruct He as [(_ & k & Hk)|(Ha & Hb)]; [rewrite Hf in Hk; discriminate|]. exfalso. apply Hind; assumption. }
  assert (Hk1 : k_ready (snd s1) = false /\ k_geo (snd s1) = true /\ k_ind (snd s1) = k_ind (snd s) /\ k_gind (snd s1) = k_gind (snd s) /\ k_gall (snd s1) = k_gall (snd s)).
  { destruct Hr1 as [(_ & ->)|(_ & n & hs & _ & _ & _ & ->)]; simpl; auto. }
  destruct Hk1 as (K1 & K2 & K3 & K4 & K5).
  assert (Hheld : NoDup (held (snd s1)) /\ incl (held (snd s1)) (map fst (n_proj (fst s1))) /\
     (k_ind (snd s) = false -> held (snd s1) = []) /\
     map (fun h => lookup h (n_proj (fst s1))) (held (snd s1)) =
       map Some (if k_ind (snd s) then match k_gind (snd s) with Some n => map DOne (seq 0 n) | None => [] end else [])).
  { destruct Hr1 as [(Hi & ->)|(Hi & n & hs & Hg & Hl & Hnew & Hs1)].
    - pose proof (i_nr _ I Er Hi) as E. rewrite E, Hi. repeat split; auto; try constructor. intros x [].
    - rewrite Hs1. unfold held; simpl. rewrite Hi, Hg.
      assert (Hfst : map fst (combine hs (map DOne (seq 0 n))) = hs) by (apply NoDup_combine_keys; rewrite map_length, seq_length; assumption).
      assert (Hsub : forall p, In p (combine hs (map DOne (seq 0 n))) -> In p (n_proj (fst s1))).
      { intros p Hp. rewrite P1, Hnew. apply in_or_app. left. rewrite <- in_rev. assumption. }
      assert (Hnd1 : NoDup (map fst (n_proj (fst s1)))) by apply W1.
      split. { rewrite <- Hfst. rewrite P1, Hnew, map_app in Hnd1.
               clear - Hnd1. rewrite map_rev in Hnd1. revert Hnd1. generalize (map fst (combine hs (map DOne (seq 0 n)))) (map fst (n_proj (fst s))).
               intros a b Hn. apply NoDup_rev in Hn. rewrite rev_app_distr, rev_involutive in Hn.
               clear -Hn. induction (rev b); [assumption|]. inversion Hn; auto. }
      split. { intros x Hx. rewrite <- Hfst in Hx. apply in_map_iff in Hx as (p & <- & Hp). apply in_map. apply Hsub. assumption. }
      split; [congruence|]. apply lookups_combine; auto. rewrite map_length, seq_length. assumption. }
  destruct Hheld as (Hnd & Hin & Hemp & Hlook).
  assert (Hpid1 : k_pid (snd s1) <> None).
  { destruct Hr1 as [(_ & ->)|(_ & n & hs & _ & _ & _ & ->)]; [apply (i_geo _ I); assumption|discriminate]. }
  assert (Hnr1 : k_ready (snd s1) = false -> k_ind (snd s1) = false -> held (snd s1) = []) by (intros _ Ha; apply Hemp; congruence).
  unfold bind at 1 in H. unfold get_bk at 1 in H. cbn iota beta in H.
  destruct (k_gall (snd s1)) eqn:Ega; simpl negb in H.
  2:{ injection H as <- <-. split. { constructor; auto; congruence. }
      do 3 (split; [assumption|]). split; [assumption|]. split; [assumption|]. split; [congruence|]. split; [congruence|]. split; [exists new; assumption|].
      split; [discriminate|]. split; [congruence|]. split.
      - intros Hf _ x Hx. destruct Hr1 as [(Hi & ->)|(Hi & n & hs & Hg & Hl & Hnew & Hs1)]; [right; assumption|].
        rewrite P1, Hnew, map_app, map_rev in Hx. apply in_app_or in Hx as [Hx|Hx]; [|right; assumption].
        rewrite <- in_rev, NoDup_combine_keys in Hx by (rewrite map_length, seq_length; assumption). left. rewrite Hs1. assumption.
      - intros _ _ _ Hga. congruence. }
  cbn [negb] in H. unfold bind at 1 in H. cbn beta iota in H. destruct (create_projector fail DAll s1) as [s2 r2] eqn:E2.
  destruct (create_spec DAll s1 s2 r2 W1 E2) as [B2 S2]. destruct r2 as [e|h].
  { destruct S2 as (-> & X2 & Hfl). destruct X2 as (W2 & P2 & D2 & A2 & Bd2 & R2 & L2 & F2). simpl in P2.
    injection H as <- <-. split.
    { constructor; rewrite ?B2; auto; try congruence.
      rewrite P2. assumption. }
    rewrite D2, A2, R2, B2. do 3 (split; [assumption|]). do 2 (split; [assumption|]). split; [congruence|]. split; [congruence|].
    split; [exists new; congruence|]. split; [discriminate|]. split; [congruence|]. split; intros Hf; rewrite Hf in Hfl; discriminate. }
  destruct S2 as (X2 & Hh & _). pose proof X2 as X2'. destruct X2 as (W2 & P2 & D2 & A2 & Bd2 & R2 & L2 & F2).
  unfold bind at 1 in H. unfold get_bk at 1 in H. cbn iota beta in H.
  destruct (k_pid (snd s2)) as [l|] eqn:El.
  2:{ exfalso. rewrite B2 in El. destruct Hr1 as [(_ & ->)|(_ & n & hs & _ & _ & _ & Hs1)]; [apply (i_geo _ I); assumption|].
      rewrite Hs1 in El. discriminate. }
  unfold set_pid in H. rewrite set_bk_eq in H. unfold bind in H. rewrite set_bk_eq in H. injection H as <- <-. simpl fst; simpl snd.
  assert (Hl : held (snd s1) = l) by (unfold held; rewrite <- B2, El; reflexivity).
  rewrite B2 in *. cbn [k_ind k_gind k_geo k_gall k_ready k_pid].
  assert (Hfresh : ~ In h l).
  { intros Hx. rewrite <- Hl in Hx. apply Hin in Hx. apply in_map_iff in Hx as (p & Ep & Hp).
    destruct W1 as (_ & Wp & _). rewrite Forall_forall in Wp. specialize (Wp p Hp). lia. }
  split.
  { constructor; simpl; auto; try congruence.
    - unfold held; simpl. rewrite <- Hl in Hfresh |- *. apply NoDup_app_comm || idtac. 
      apply NoDup_rev in Hnd. rewrite <- (rev_involutive (held (snd s1) ++ [h])). apply NoDup_rev. rewrite rev_app_distr. simpl.
      constructor; [rewrite <- in_rev; assumption|assumption].
    - unfold held; simpl. rewrite P2, map_app. intros x Hx. apply in_app_or in Hx as [Hx|[<-|[]]]; [right; apply Hin; rewrite Hl; assumption|left; reflexivity].
    - intros _. split; [discriminate|]. split.
      + intros Hi. rewrite K3 in Hi. destruct Hr1 as [(Hi' & _)|(_ & n & hs & Hg & _)]; congruence.
      + unfold held, expected; simpl. rewrite !map_app. f_equal.
        * rewrite K3, K4, <- Hlook, Hl. apply map_ext_in. intros x Hx. apply (ext_lookup _ _ _ x X2'); [apply Hin; rewrite Hl; assumption|assumption].
        * simpl. f_equal. rewrite P2. unfold lookup. simpl. rewrite Nat.eqb_refl. reflexivity. }
  rewrite D2, A2, R2. do 3 (split; [assumption|]). do 2 (split; [assumption|]). split; [congruence|]. split; [congruence|].
  split; [exists ([(h, DAll)] ++ new); rewrite P2, P1, app_assoc; reflexivity|]. split; [reflexivity|]. split; [congruence|]. split; [|reflexivity].
  intros _ Hh0 x Hx. unfold held; simpl. rewrite P2, P1 in Hx. simpl in Hx. destruct Hx as [<-|Hx]; [left; apply in_or_app; right; left; reflexivity|].
  rewrite map_app in Hx. apply in_app_or in Hx as [Hx|Hx]; [|right; assumption]. left. apply in_or_app. left.
  destruct Hr1 as [(Hi & Hs1)|(Hi & n & hs & Hg & Hln & Hnew & Hs1)].
  - exfalso. subst s1. destruct new as [|p new]; [destruct Hx|]. apply (f_equal (@List.length _)) in P1. rewrite app_length in P1. simpl in P1. lia.
  - rewrite <- Hl, Hs1. unfold held; simpl. rewrite Hnew, map_rev, <- in_rev, NoDup_combine_keys in Hx by (rewrite map_length, seq_length; assumption). assumption.
Qed.

(** ** projections *)
Lemma filter_neq_fresh h l : Forall (fun x => (x < h)%nat) l -> filter (fun x => negb (Nat.eqb x h)) l = l.
Proof.
  induction l as [|x l IH]; intros H; [reflexivity|]. inversion H as [|? ? Hx Hl]; subst. simpl.
  destruct (Nat.eqb_spec x h); [lia|]. simpl. f_equal. auto.
Qed.
Lemma existsb_self h l : existsb (Nat.eqb h) (h :: l) = true.
Proof. simpl. rewrite Nat.eqb_refl. reflexivity. Qed.
Lemma filter_self h l : Forall (fun x => (x < h)%nat) l -> filter (fun x => negb (Nat.eqb x h)) (h :: l) = l.
Proof. intros H. simpl. rewrite Nat.eqb_refl. simpl. apply filter_neq_fresh. assumption. Qed.

Definition native_part (g : desc) (pid : nat) : M unit :=
  vid <- link_data fail ;;
  try_finally
    (sid <- link_data fail ;;
     try_finally
       (aid <- create_algorithm fail sid vid pid ;;
        try_finally (run fail g pid) (delete_algorithm aid))
       (delete_data sid))
    (delete_data vid).
Ltac fin := repeat split; cbn; auto; try (eapply Forall_lt_mono; [|eassumption]; lia);
  try (eapply Forall_impl; [|eassumption]; intros; simpl in *; lia); eauto.
Lemma native_part_spec g pid d s s' r : wf (fst s) -> lookup pid (n_proj (fst s)) = Some d -> native_part g pid s = (s', r) ->
  wf (fst s') /\ n_proj (fst s') = n_proj (fst s) /\ n_data (fst s') = n_data (fst s) /\ n_algo (fst s') = n_algo (fst s) /\
  n_bad (fst s') = n_bad (fst s) /\ snd s' = snd s /\
  match r with
  | inr _ => n_runs (fst s') = (g, d) :: n_runs (fst s)
  | inl e => e = Native /\ n_runs (fst s') = n_runs (fst s) /\ exists k, fail k = true
  end.
Proof.
  intros (W1 & W2 & W3 & W4) Hd H.
  assert (Hex : existsb (fun p => Nat.eqb (fst p) pid) (n_proj (fst s)) = true).
  { unfold lookup in Hd. destruct (find (fun p => Nat.eqb (fst p) pid) (n_proj (fst s))) as [p|] eqn:Ef; [|discriminate].
    apply find_some in Ef. apply existsb_exists. eauto. }
  destruct s as [n b]. cbn [fst snd] in *.
  unfold native_part, bind, try_finally, link_data in H. cbn [fst snd] in H.
  destruct (fail (n_call n)) eqn:F1.
  { injection H as <- <-. cbn. fin. }
  cbn in H. destruct (fail (S (n_call n))) eqn:F2.
  { cbn in H. rewrite Nat.eqb_refl in H. cbn in H. rewrite Bool.orb_false_r, filter_neq_fresh in H by assumption.
    injection H as <- <-. cbn. fin. }
  cbn in H. unfold create_algorithm in H. cbn in H.
  destruct (fail (S (S (n_call n)))) eqn:F3.
  { cbn in H. repeat (rewrite Nat.eqb_refl in H; cbn in H).
    destruct (Nat.eqb_spec (n_next n) (S (n_next n))) as [E|E]; [lia|]. cbn in H.
    rewrite (filter_neq_fresh (S (n_next n))) in H by (eapply Forall_lt_mono; [|eassumption]; lia).
    rewrite !Nat.eqb_refl in H. cbn in H. rewrite filter_neq_fresh in H by assumption.
    rewrite !Bool.orb_false_r in H. injection H as <- <-. cbn. fin. }
  cbn in H. rewrite !Nat.eqb_refl in H. cbn in H.
  assert (Eb : (n_bad n || negb (((Nat.eqb (n_next n) (S (n_next n)) || true) && existsb (fun p => Nat.eqb (fst p) pid) (n_proj n))%bool))%bool = n_bad n).
  { rewrite Hex, Bool.orb_true_r. simpl. apply Bool.orb_false_r. }
  unfold run in H. cbn in H.
  destruct (fail (S (S (S (n_call n))))) eqn:F4.
  - cbn in H. rewrite ?Nat.eqb_refl in H. cbn in H. rewrite ?Nat.eqb_refl in H. cbn in H.
    destruct (Nat.eqb_spec (n_next n) (S (n_next n))) as [E|E]; [lia|]. cbn in H. rewrite ?Nat.eqb_refl in H. cbn in H.
    rewrite (filter_neq_fresh (S (S (n_next n)))) in H by (eapply Forall_lt_mono; [|exact W4]; lia).
    rewrite (filter_neq_fresh (S (n_next n))) in H by (eapply Forall_lt_mono; [|exact W3]; lia).
    rewrite filter_neq_fresh in H by assumption.
    rewrite Hex in H. cbn in H. rewrite !Bool.orb_false_r in H. injection H as <- <-. cbn. fin.
  - rewrite Hd in H. cbn in H. rewrite ?Nat.eqb_refl in H. cbn in H. rewrite ?Nat.eqb_refl in H. cbn in H.
    destruct (Nat.eqb_spec (n_next n) (S (n_next n))) as [E|E]; [lia|]. cbn in H. rewrite ?Nat.eqb_refl in H. cbn in H.
    rewrite (filter_neq_fresh (S (S (n_next n)))) in H by (eapply Forall_lt_mono; [|exact W4]; lia).
    rewrite (filter_neq_fresh (S (n_next n))) in H by (eapply Forall_lt_mono; [|exact W3]; lia).
    rewrite filter_neq_fresh in H by assumption.
    rewrite Hex in H. cbn in H. rewrite !Bool.orb_false_r in H. injection H as <- <-. cbn. fin.
Qed.

Lemma expected_length b n : k_gind b = Some n -> k_ind b = true -> List.length (expected b) = S n.
Proof. intros H1 H2. unfold expected. rewrite H1, H2, app_length, map_length, seq_length. simpl. lia. Qed.
Lemma held_lookup s p : Inv s -> k_ready (snd s) = true -> (p < List.length (held (snd s)))%nat ->
  lookup (nth p (held (snd s)) 0%nat) (n_proj (fst s)) = Some (nth p (expected (snd s)) DAll).
Proof.
  intros I Hr Hp. destruct (i_rd _ I Hr) as (_ & _ & Hm).
  pose proof (f_equal (fun l => nth p l None) Hm) as E. cbv beta in E.
  rewrite (nth_indep _ None (lookup 0%nat (n_proj (fst s)))) in E by (rewrite map_length; assumption).
  rewrite (map_nth (fun h => lookup h (n_proj (fst s)))) in E. rewrite E.
  apply (f_equal (@List.length _)) in Hm. rewrite !map_length in Hm.
  rewrite (nth_indep _ None (Some DAll)) by (rewrite map_length; lia). apply (map_nth Some).
Qed.
Lemma held_length s : Inv s -> k_ready (snd s) = true -> List.length (held (snd s)) = List.length (expected (snd s)).
Proof. intros I Hr. destruct (i_rd _ I Hr) as (_ & _ & Hm). apply (f_equal (@List.length _)) in Hm. rewrite !map_length in Hm. exact Hm. Qed.
Lemma py_index_lt n i k : py_index n i = Some k -> (k < n)%nat.
Proof.
  unfold py_index. destruct (Z.leb_spec 0 i).
  - destruct (Z.ltb_spec i (Z.of_nat n)); [|discriminate]. intros E; injection E as <-. lia.
  - destruct (Z.leb_spec (- Z.of_nat n) i); [|discriminate]. intros E; injection E as <-. lia.
Qed.
Lemma last_lookup s h l : Inv s -> k_ready (snd s) = true -> rev (held (snd s)) = h :: l -> lookup h (n_proj (fst s)) = Some DAll.
Proof.
  intros I Hr Hl. pose proof (held_length s I Hr) as HL.
  assert (E : held (snd s) = rev l ++ [h]) by (rewrite <- (rev_involutive (held (snd s))), Hl; reflexivity).
  assert (Hn : nth (List.length (rev l)) (held (snd s)) 0%nat = h).
  { rewrite E, app_nth2, Nat.sub_diag by lia. reflexivity. }
  rewrite <- Hn. rewrite held_lookup; auto.
  2:{ rewrite E, app_length. simpl. lia. }
  f_equal. rewrite E, app_length in HL. simpl in HL. unfold expected in *. rewrite app_length in HL. simpl in HL.
  rewrite app_nth2 by lia. match goal with |- nth ?k _ _ = _ => replace k with 0%nat by lia end. reflexivity.
Qed.
Lemma select_spec ai s s' r : Inv s -> k_ready (snd s) = true -> select ai s = (s', r) -> s' = s /\
  match r with
  | inl e => exists e', e = Py e'
  | inr (g, h) => exists d, lookup h (n_proj (fst s)) = Some d /\
     match ai with
     | None => g = DAll /\ d = DAll
     | Some i => k_ind (snd s) = true /\ exists n p q, k_gind (snd s) = Some n /\ py_index n i = Some p /\ py_index (S n) i = Some q /\
         g = DOne p /\ d = nth q (expected (snd s)) DAll
     end
  end.
Proof.
  intros I Hr H. unfold select, bind, get_bk in H. destruct (i_rd _ I Hr) as (Hp & Hi & Hm).
  assert (Hheld : forall l, k_pid (snd s) = Some l -> held (snd s) = l) by (intros l El; unfold held; rewrite El; reflexivity).
  destruct (k_pid (snd s)) as [l|] eqn:El; [|congruence]. specialize (Hheld l eq_refl).
  destruct ai as [i|].
  - destruct (k_ind (snd s)) eqn:Ei; cbn [negb] in H; [|injection H as <- <-; split; eauto].
    destruct (k_gind (snd s)) as [n|] eqn:Eg; [|injection H as <- <-; split; eauto].
    destruct (py_index n i) as [p|] eqn:Ep; [|injection H as <- <-; split; eauto].
    pose proof (held_length s I Hr) as HL. rewrite (expected_length _ n Eg Ei), Hheld in HL. rewrite HL in H.
    destruct (py_index (S n) i) as [q|] eqn:Eq; [|injection H as <- <-; split; eauto].
    injection H as <- <-. split; [reflexivity|]. exists (nth q (expected (snd s)) DAll). split.
    + rewrite <- Hheld. apply held_lookup; auto. rewrite Hheld, HL. eapply py_index_lt; eassumption.
    + split; [reflexivity|]. exists n, p, q. repeat split; auto.
  - destruct (rev l) as [|h l'] eqn:Erev; injection H as <- <-; (split; [reflexivity|]); [eauto|].
    exists DAll. split; [|auto]. apply (last_lookup s h l' I Hr). rewrite Hheld. assumption.
Qed.
Lemma Inv_same s s' : Inv s -> wf (fst s') -> n_proj (fst s') = n_proj (fst s) -> n_bad (fst s') = n_bad (fst s) -> snd s' = snd s -> Inv s'.
Proof. intros I W P B K. destruct I. constructor; rewrite ?K, ?P, ?B; auto. Qed.

Lemma project_spec ok ai s s' r : Inv s -> project fail ok ai s = (s', r) ->
  Inv s' /\ n_data (fst s') = n_data (fst s) /\ n_algo (fst s') = n_algo (fst s) /\
  k_ind (snd s') = k_ind (snd s) /\ k_gind (snd s') = k_gind (snd s) /\
  exists s1, make_ready fail s = (s1, (match r with inl _ => snd (make_ready fail s) | inr _ => inr tt end)) /\
  n_proj (fst s') = n_proj (fst s1) /\ snd s' = snd s1 /\
  match r with
  | inl _ => n_runs (fst s') = n_runs (fst s)
  | inr _ => match ai with
     | None => n_runs (fst s') = (DAll, DAll) :: n_runs (fst s)
     | Some i => exists n p q, k_ind (snd s) = true /\ k_gind (snd s) = Some n /\ py_index n i = Some p /\ py_index (S n) i = Some q /\
         n_runs (fst s') = (DOne p, nth q (expected (snd s)) DAll) :: n_runs (fst s)
     end
  end.
Proof.
  intros I H. unfold project in H. unfold bind at 1 in H. destruct (make_ready fail s) as [s1 r1] eqn:E1.
  destruct (ready_spec s s1 r1 I E1) as (I1 & D1 & A1 & R1 & K1 & K2 & _ & _ & _ & Hr1 & _).
  destruct r1 as [e|[]].
  { injection H as <- <-. split; [assumption|]. do 4 (split; [assumption|]). exists s1. simpl. auto. }
  specialize (Hr1 eq_refl). unfold bind at 1 in H. destruct ok.
  2:{ injection H as <- <-. split; [assumption|]. do 4 (split; [assumption|]). exists s1. simpl. auto. }
  unfold ret in H. unfold bind at 1 in H. destruct (select ai s1) as [s2 r2] eqn:E2.
  destruct (select_spec ai s1 s2 r2 I1 Hr1 E2) as [-> S2]. destruct r2 as [e|[g h]].
  { injection H as <- <-. split; [assumption|]. do 4 (split; [assumption|]). exists s1. simpl. auto. }
  destruct S2 as (d & Hd & Hsel). cbn [fst snd] in H.
  change (native_part g h s1 = (s', r)) in H.
  destruct (native_part_spec g h d s1 s' r (i_wf _ I1) Hd H) as (W & P & D & A & B & K & Hr).
  split; [apply (Inv_same s1); auto|]. rewrite D, A, K. do 4 (split; [assumption|]). exists s1.
  split; [destruct r; reflexivity|]. do 2 (split; [first [assumption|reflexivity]|]).
  destruct r as [e|u]; [destruct Hr as (_ & Hr & _); congruence|]. rewrite Hr, R1.
  destruct ai as [i|].
  - destruct Hsel as (Hi & n & p & q & Hg & Hp & Hq & -> & ->). exists n, p, q. rewrite K1 in Hi. rewrite K2 in Hg. repeat split; auto.
    unfold expected. rewrite K1, K2. reflexivity.
  - destruct Hsel as [-> ->]. reflexivity.
Qed.

Lemma select_direct_spec ai s s' r : Inv s -> k_ready (snd s) = true -> select_direct ai s = (s', r) -> s' = s /\
  match r with
  | inl e => exists e', e = Py e'
  | inr (g, h) => exists d, lookup h (n_proj (fst s)) = Some d /\
     match ai with
     | None => g = DAll /\ d = DAll
     | Some i => k_ind (snd s) = true /\ exists n q, k_gind (snd s) = Some n /\ py_index (S n) i = Some q /\
         g = DOne (Z.to_nat (if (i <? 0)%Z then Z.of_nat n + i else i)%Z) /\ d = nth q (expected (snd s)) DAll
     end
  end.
Proof.
  intros I Hr H. unfold select_direct, bind, get_bk in H. destruct (i_rd _ I Hr) as (Hp & Hi & Hm).
  assert (Hheld : forall l, k_pid (snd s) = Some l -> held (snd s) = l) by (intros l El; unfold held; rewrite El; reflexivity).
  destruct (k_pid (snd s)) as [l|] eqn:El; [|congruence]. specialize (Hheld l eq_refl).
  destruct ai as [i|].
  - destruct (k_ind (snd s)) eqn:Ei; cbn [negb] in H; [|injection H as <- <-; split; eauto].
    destruct (k_gind (snd s)) as [n|] eqn:Eg; [|exfalso; apply Hi; auto].
    pose proof (held_length s I Hr) as HL. rewrite (expected_length _ n Eg Ei), Hheld in HL. rewrite HL in H.
    destruct (py_index (S n) i) as [q|] eqn:Eq; [|injection H as <- <-; split; eauto].
    injection H as <- <-. split; [reflexivity|]. exists (nth q (expected (snd s)) DAll). split.
    + rewrite <- Hheld. apply held_lookup; auto. rewrite Hheld, HL. eapply py_index_lt; eassumption.
    + split; [reflexivity|]. exists n, q. repeat split; auto.
  - destruct (rev l) as [|h l'] eqn:Erev; injection H as <- <-; (split; [reflexivity|]); [eauto|].
    exists DAll. split; [|auto]. apply (last_lookup s h l' I Hr). rewrite Hheld. assumption.
Qed.
Lemma run_spec g pid d s s' r : wf (fst s) -> lookup pid (n_proj (fst s)) = Some d -> run fail g pid s = (s', r) ->
  wf (fst s') /\ n_proj (fst s') = n_proj (fst s) /\ n_data (fst s') = n_data (fst s) /\ n_algo (fst s') = n_algo (fst s) /\
  n_bad (fst s') = n_bad (fst s) /\ snd s' = snd s /\
  match r with inr _ => n_runs (fst s') = (g, d) :: n_runs (fst s) | inl e => n_runs (fst s') = n_runs (fst s) end.
Proof.
  intros (W1 & W2 & W3 & W4) Hd H. unfold run in H. cbn [bump n_proj] in H. rewrite Hd in H.
  destruct (fail (n_call (fst s))); injection H as <- <-; cbn; fin.
Qed.
Lemma project_direct_spec ok ai s s' r : Inv s -> project_direct fail ok ai s = (s', r) ->
  Inv s' /\ n_data (fst s') = n_data (fst s) /\ n_algo (fst s') = n_algo (fst s) /\
  exists s1, make_ready fail s = (s1, (match r with inl _ => snd (make_ready fail s) | inr _ => inr tt end)) /\
  n_proj (fst s') = n_proj (fst s1) /\ snd s' = snd s1 /\
  match r with
  | inl _ => n_runs (fst s') = n_runs (fst s)
  | inr _ => match ai with
     | None => n_runs (fst s') = (DAll, DAll) :: n_runs (fst s)
     | Some i => exists n q, k_ind (snd s) = true /\ k_gind (snd s) = Some n /\ py_index (S n) i = Some q /\
         n_runs (fst s') = (DOne (Z.to_nat (if (i <? 0)%Z then Z.of_nat n + i else i)%Z), nth q (expected (snd s)) DAll) :: n_runs (fst s)
     end
  end.
Proof.
  intros I H. unfold project_direct in H. unfold bind at 1 in H. destruct (make_ready fail s) as [s1 r1] eqn:E1.
  destruct (ready_spec s s1 r1 I E1) as (I1 & D1 & A1 & R1 & K1 & K2 & _ & _ & _ & Hr1 & _).
  destruct r1 as [e|[]].
  { injection H as <- <-. split; [assumption|]. do 2 (split; [assumption|]). exists s1. simpl. auto. }
  specialize (Hr1 eq_refl). unfold bind at 1 in H. destruct (select_direct ai s1) as [s2 r2] eqn:E2.
  destruct (select_direct_spec ai s1 s2 r2 I1 Hr1 E2) as [-> S2]. destruct r2 as [e|[g h]].
  { injection H as <- <-. split; [assumption|]. do 2 (split; [assumption|]). exists s1. simpl. auto. }
  unfold bind in H. destruct ok.
  2:{ injection H as <- <-. split; [assumption|]. do 2 (split; [assumption|]). exists s1. simpl. auto. }
  destruct S2 as (d & Hd & Hsel). cbn [fst snd ret] in H.
  destruct (run_spec g h d s1 s' r (i_wf _ I1) Hd H) as (W & P & D & A & B & K & Hr).
  split; [apply (Inv_same s1); auto|]. rewrite D, A. do 2 (split; [assumption|]). exists s1.
  split; [destruct r; reflexivity|]. do 2 (split; [assumption|]).
  destruct r as [e|u]; [congruence|]. rewrite Hr, R1.
  destruct ai as [i|].
  - destruct Hsel as (Hi & n & q & Hg & Hq & -> & ->). exists n, q. rewrite K1 in Hi. rewrite K2 in Hg. repeat split; auto.
    unfold expected. rewrite K1, K2. reflexivity.
  - destruct Hsel as [-> ->]. reflexivity.
Qed.

Lemma Inv_op o s : Inv s -> Inv (fst (do_op fail o s)).
Proof.
  intros I. destruct (do_op fail o s) as [s' r] eqn:E. simpl. destruct o; simpl in E.
  - eapply Inv_init; eassumption.
  - eapply ready_spec; eassumption.
  - eapply project_spec; eassumption.
  - eapply project_direct_spec; eassumption.
  - eapply Inv_dispose; eassumption.
  - unfold del, bind, get_bk in E. destruct (k_ready (snd s)); [eapply Inv_dispose; eassumption|]. injection E as <- <-. assumption.
Qed.
Lemma Inv_ops ops : forall s, Inv s -> Inv (run_ops fail ops s).
Proof. induction ops as [|o ops IH]; intros s I; [assumption|]. simpl. apply IH. apply Inv_op. assumption. Qed.
Lemma init_native n ind pre post s : fst (fst (initialize_geometry n ind pre post s)) = fst s.
Proof using.
  unfold initialize_geometry. destruct pre; [reflexivity|]. unfold bind, set_bk, dispose, get_bk. simpl. unfold bind, ret. simpl. destruct post; reflexivity.
Qed.
Lemma data_algo_op o s : Inv s -> n_data (fst (fst (do_op fail o s))) = n_data (fst s) /\ n_algo (fst (fst (do_op fail o s))) = n_algo (fst s).
Proof.
  intros I. destruct o as [n ind pre post| | | | |]; simpl.
  - rewrite init_native. auto.
  - destruct (make_ready fail s) as [s' r] eqn:E. destruct (ready_spec s s' r I E) as (_ & D & A & _). auto.
  - destruct (project fail data_ok i s) as [s' r] eqn:E. destruct (project_spec _ _ s s' r I E) as (_ & D & A & _). auto.
  - destruct (project_direct fail data_ok i s) as [s' r] eqn:E. destruct (project_direct_spec _ _ s s' r I E) as (_ & D & A & _). auto.
  - destruct (dispose s) as [s' r] eqn:E. destruct (dispose_spec s s' r I E) as [(_ & -> & _)|(_ & _ & _ & D & A & _)]; auto.
  - unfold del, bind, get_bk. destruct (k_ready (snd s)); [|simpl; auto].
    destruct (dispose s) as [s' r] eqn:E. destruct (dispose_spec s s' r I E) as [(_ & -> & _)|(_ & _ & _ & D & A & _)]; auto.
Qed.

(** * C54: temporary native objects *)
(** whatever sequence of calls is made, and whichever native calls raise, no data object and no algorithm stays alive *)
Theorem C54_no_temporary_leak ops : n_data (fst (run_ops fail ops (native0, bk0))) = [] /\ n_algo (fst (run_ops fail ops (native0, bk0))) = [].
Proof.
  assert (G : forall ops s, Inv s -> n_data (fst (run_ops fail ops s)) = n_data (fst s) /\ n_algo (fst (run_ops fail ops s)) = n_algo (fst s)).
  { clear ops. induction ops as [|o ops IH]; intros s I; [auto|]. simpl. destruct (IH _ (Inv_op o s I)) as [-> ->]. apply data_algo_op. assumption. }
  apply (G ops _ Inv0).
Qed.
(** * C52: safety *)
(** no handle is ever deleted twice, or used after deletion, and the handles held by the backend are live and distinct *)
Theorem C52_no_double_free ops : let s := run_ops fail ops (native0, bk0) in
  n_bad (fst s) = false /\ NoDup (held (snd s)) /\ (forall h, In h (held (snd s)) -> In h (map fst (n_proj (fst s)))) /\
  (k_ready (snd s) = true -> map (fun h => lookup h (n_proj (fst s))) (held (snd s)) = map Some (expected (snd s))).
Proof.
  cbv zeta. pose proof (Inv_ops ops _ Inv0) as I. split; [apply I|]. split; [apply I|]. split; [apply I|].
  intros Hr. apply (i_rd _ I Hr).
Qed.
End WithFail.

(** * C52: no leak *)
(** histories in which no native creation fails and the geometry is never (re)set while projectors are held *)
Definition no_fail : nat -> bool := fun _ => false.
Fixpoint no_reinit (ops : list bop) (s : st) : Prop :=
  match ops with
  | [] => True
  | o :: ops' => (match o with OInit _ _ false _ => held (snd s) = [] | _ => True end) /\ no_reinit ops' (fst (do_op no_fail o s))
  end.
Definition NL (s : st) : Prop :=
  Inv s /\ (forall h, In h (map fst (n_proj (fst s))) -> In h (held (snd s))) /\
  (held (snd s) = [] \/ k_ready (snd s) = true) /\ (k_gind (snd s) <> None -> k_gall (snd s) = true).
Lemma create_list_nf ds : forall s, exists s' hs, create_list no_fail ds s = (s', inr hs).
Proof.
  induction ds as [|d ds IH]; intros t; [eexists; eexists; reflexivity|]. simpl. unfold bind, create_projector. cbn [no_fail].
  match goal with |- context [create_list no_fail ds ?t1] => destruct (IH t1) as (t' & hs & ->) end. eexists; eexists; reflexivity.
Qed.
Lemma ready_total s s' r : NL s -> make_ready no_fail s = (s', r) -> r = inr tt \/ s' = s.
Proof.
  intros (I & Hl & Hh & Hg) E.
  unfold make_ready, bind, get_bk in E.
  destruct (k_ready (snd s)) eqn:Er; [left; injection E as <- <-; reflexivity|].
  destruct (k_geo (snd s)) eqn:Egeo; cbn [negb] in E; [|right; injection E as <- <-; reflexivity].
  pose proof (i_geo _ I Egeo) as Hp.
  destruct (k_ind (snd s)) eqn:Ei.
  - destruct (k_gind (snd s)) as [n|] eqn:Egi; [|right; injection E as <- <-; reflexivity].
    specialize (Hg ltac:(discriminate)).
    destruct (create_list_nf (map DOne (seq 0 n)) s) as (t & hs & Et). rewrite Et in E.
    destruct (create_list_spec no_fail _ s t _ (i_wf _ I) Et) as (Bt & _). unfold set_pid, set_bk in E. cbn [fst snd k_gall] in E. rewrite Bt, Hg in E.
    cbn in E. left. injection E as <- <-. reflexivity.
  - unfold ret in E. destruct (k_gall (snd s)); cbn [negb] in E; [|right; injection E as <- <-; reflexivity].
    unfold create_projector in E. cbn in E. destruct (k_pid (snd s)); [|congruence]. left. injection E as <- <-. reflexivity.
Qed.
Lemma NL_ready s s' r : NL s -> make_ready no_fail s = (s', r) -> NL s'.
Proof.
  intros Hn E. destruct (ready_total s s' r Hn E) as [-> | ->]; [|assumption].
  destruct Hn as (I & Hl & Hh & Hg).
  destruct (ready_spec no_fail s s' _ I E) as (I' & _ & _ & _ & _ & G1 & _ & G2 & _ & Hr & Hrd & Hno & _).
  split; [assumption|]. split; [|split; [right; apply Hr; reflexivity|rewrite G1, G2; assumption]].
  intros h Hi. destruct Hh as [Hh|Hh].
  - destruct (Hno (fun _ => eq_refl) (or_introl Hh) h Hi) as [|Hi']; [assumption|]. apply Hl in Hi'. rewrite Hh in Hi'. destruct Hi'.
  - destruct (Hrd Hh) as [-> _]. apply Hl. assumption.
Qed.
Lemma NL_dispose s s' r : NL s -> dispose s = (s', r) -> NL s'.
Proof.
  intros (I & Hl & Hh & Hg) E. pose proof (Inv_dispose s s' r I E) as I'.
  destruct (dispose_spec s s' r I E) as [(_ & -> & _)|(_ & _ & _ & _ & _ & _ & P & K)]; [exact (conj I (conj Hl (conj Hh Hg)))|].
  split; [assumption|]. rewrite K. simpl. split; [|auto].
  intros h Hi. apply in_map_iff in Hi as (p & <- & Hp). apply P in Hp as [Hp Hn]. apply Hn, Hl. apply in_map. assumption.
Qed.
Lemma NL_same s s' : NL s -> Inv s' -> n_proj (fst s') = n_proj (fst s) -> snd s' = snd s -> NL s'.
Proof. intros (I & Hl & Hh & Hg) I' P K. unfold NL. rewrite P, K. auto. Qed.
Lemma NL_op o s : NL s -> (match o with OInit _ _ false _ => held (snd s) = [] | _ => True end) -> NL (fst (do_op no_fail o s)).
Proof.
  intros Hn Ho. destruct (do_op no_fail o s) as [s' r] eqn:E. cbn [fst]. destruct o; cbn [do_op] in E.
  - pose proof (Inv_init _ _ _ _ s s' r (proj1 Hn) E) as I'. pose proof (init_native n ind pre post s) as En. rewrite E in En. cbn [fst] in En.
    destruct pre; [injection E as <- <-; assumption|]. destruct Hn as (I & Hl & Hh & Hg).
    split; [assumption|]. split; [intros h Hi; rewrite En in Hi; apply Hl in Hi; rewrite Ho in Hi; destruct Hi|].
    unfold initialize_geometry, bind, set_bk, dispose, get_bk in E. cbn in E. unfold bind, ret in E. cbn in E.
    destruct post; injection E as <- <-; cbn; split; auto.
  - eapply NL_ready; eassumption.
  - destruct (project_spec no_fail _ _ s s' r (proj1 Hn) E) as (I' & _ & _ & _ & _ & s1 & E1 & P & K & _).
    eapply NL_same; [|eassumption|eassumption|eassumption]. eapply NL_ready; eassumption.
  - destruct (project_direct_spec no_fail _ _ s s' r (proj1 Hn) E) as (I' & _ & _ & s1 & E1 & P & K & _).
    eapply NL_same; [|eassumption|eassumption|eassumption]. eapply NL_ready; eassumption.
  - eapply NL_dispose; eassumption.
  - unfold del, bind, get_bk in E. destruct (k_ready (snd s)); [eapply NL_dispose; eassumption|]. injection E as <- <-. assumption.
Qed.
Lemma NL0 : NL (native0, bk0).
Proof. split; [apply Inv0|]. simpl. repeat split; auto; congruence. Qed.
Lemma NL_ops ops : forall s, NL s -> no_reinit ops s -> NL (run_ops no_fail ops s).
Proof. induction ops as [|o ops IH]; intros s Hn Hr; [assumption|]. destruct Hr as [Ho Hr]. simpl. apply IH; [|assumption]. apply NL_op; assumption. Qed.

(** If the native toolbox never fails and the geometry is never set again while the backend holds projectors, then after
    any sequence of calls the live native projectors are exactly those the backend holds... *)
Theorem C52_no_leak ops : no_reinit ops (native0, bk0) -> let s := run_ops no_fail ops (native0, bk0) in
  forall h, In h (map fst (n_proj (fst s))) <-> In h (held (snd s)).
Proof. intros Hr s h. destruct (NL_ops ops _ NL0 Hr) as (I & Hl & _). split; [apply Hl|apply (i_in _ I)]. Qed.
(** ... so after [dispose], or after the object is destroyed, none is alive *)
Lemma run_ops_app fail a b s : run_ops fail (a ++ b) s = run_ops fail b (run_ops fail a s).
Proof. revert s. induction a as [|o a IH]; intros s; [reflexivity|]. simpl. apply IH. Qed.
Lemma map_fst_nil (l : list (nat * desc)) : (forall h, In h (map fst l) -> False) -> l = [].
Proof. destruct l as [|p l]; [reflexivity|]. intros H. destruct (H (fst p)). left. reflexivity. Qed.
Theorem C52_dispose_frees_all ops o : o = ODispose \/ o = ODel -> no_reinit ops (native0, bk0) ->
  n_proj (fst (run_ops no_fail (ops ++ [o]) (native0, bk0))) = [].
Proof.
  intros Ho Hr. rewrite run_ops_app. cbn [run_ops]. pose proof (NL_ops ops _ NL0 Hr) as Hn. set (s := run_ops no_fail ops (native0, bk0)) in *.
  pose proof (NL_op o s Hn) as Hn'. destruct (do_op no_fail o s) as [s' r] eqn:E. cbn [fst] in *.
  assert (Hn2 : NL s') by (apply Hn'; destruct Ho; subst o; exact Logic.I).
  apply map_fst_nil. intros h Hi. apply (proj1 (proj2 Hn2)) in Hi.
  assert (Hd : forall t, NL t -> held (snd (fst (dispose t))) = []).
  { intros t (It & Hlt & _). destruct (dispose t) as [t' rt] eqn:Et. cbn [fst].
    destruct (dispose_spec t t' rt It Et) as [(Ep & -> & _)|(_ & _ & _ & _ & _ & _ & _ & K)].
    - unfold held. rewrite Ep. reflexivity.
    - rewrite K. reflexivity. }
  destruct Ho; subst o; cbn [do_op] in E.
  - specialize (Hd s Hn). rewrite E in Hd. cbn [fst] in Hd. rewrite Hd in Hi. destruct Hi.
  - unfold del, bind, get_bk in E. destruct (k_ready (snd s)) eqn:Er.
    + specialize (Hd s Hn). rewrite E in Hd. cbn [fst] in Hd. rewrite Hd in Hi. destruct Hi.
    + injection E as <- <-. destruct Hn as (_ & _ & [Hh|Hh] & _); [|congruence]. rewrite Hh in Hi. destruct Hi.
Qed.
(** ... and every call made on a backend whose geometry was set successfully finds the projectors it needs *)
Example C52_witness : let ops := [OInit 3 true false false; OReady; OProject true (Some 1%Z); OProject true None; ODispose; OInit 2 false false false; OProject true None] in
  no_reinit ops (native0, bk0) /\ map fst (n_proj (fst (run_ops no_fail ops (native0, bk0)))) = [10%nat] /\
  n_runs (fst (run_ops no_fail ops (native0, bk0))) = [(DAll, DAll); (DAll, DAll); (DOne 1, DOne 1)].
Proof. cbv zeta. split; [vm_compute; repeat split; auto|split; vm_compute; reflexivity]. Qed.

(** * C53: setting the geometry again *)
(** initialize_geometry forgets the handles it holds before disposing of them: all of them stay alive, whatever happens next *)
Definition reinit_keeps_live : Prop := forall fail s n ind post, Inv s ->
  n_proj (fst (fst (do_op fail (OInit n ind false post) s))) = n_proj (fst s) /\ held (snd (fst (do_op fail (OInit n ind false post) s))) = [].
Theorem C53_reinit_leaks : reinit_keeps_live.
Proof.
  intros fail s n ind post I. cbn [do_op]. rewrite init_native. split; [reflexivity|].
  unfold initialize_geometry, bind, set_bk, dispose, get_bk. cbn. unfold bind, ret. cbn. destruct post; reflexivity.
Qed.
Lemma ready_held fail s s' r : Inv s -> make_ready fail s = (s', r) ->
  forall x, In x (held (snd s')) -> In x (held (snd s)) \/ (n_next (fst s) <= x)%nat.
Proof.
  intros I E x Hx. unfold make_ready, bind, get_bk in E.
  destruct (k_ready (snd s)) eqn:Er; [injection E as <- <-; left; exact Hx|].
  destruct (k_geo (snd s)) eqn:Egeo; cbn [negb] in E; [|injection E as <- <-; left; exact Hx].
  assert (Hc : forall t (b : bk), wf (fst t) -> (n_next (fst s) <= n_next (fst t))%nat ->
            (forall y, In y (held (snd t)) -> In y (held (snd s)) \/ (n_next (fst s) <= y)%nat) ->
            (let (s1, r0) := (if negb (k_gall (snd t)) then raise (Py AttributeError)
               else fun t => let (s1, r0) := create_projector fail DAll t in
                    match r0 with inl e => (s1, inl e)
                    | inr a => (match k_pid (snd s1) with Some l => set_pid (l ++ [a]) | None => raise (Py AttributeError) end) s1 end) t in
             match r0 with inl e => (s1, inl e) | inr _ => set_bk (fun b0 => mkB (k_pid b0) true (k_geo b0) (k_ind b0) (k_gind b0) (k_gall b0)) s1 end) = (s', r) ->
            In x (held (snd s)) \/ (n_next (fst s) <= x)%nat).
  { intros t _ W L Hy Et. destruct (negb (k_gall (snd t))); [injection Et as <- <-; apply Hy; exact Hx|].
    destruct (create_projector fail DAll t) as [u ru] eqn:Eu. destruct (create_spec fail DAll t u ru W Eu) as [Bu Su].
    destruct ru as [e|h]; [injection Et as <- <-; apply Hy; rewrite <- Bu; exact Hx|]. destruct Su as (_ & -> & _).
    rewrite Bu in Et. destruct (k_pid (snd t)) as [l|] eqn:El.
    - unfold set_pid, set_bk in Et. cbn in Et. injection Et as <- <-. cbn in Hx. unfold held in Hx. cbn in Hx.
      apply in_app_iff in Hx as [Hx|[<-|[]]]; [|auto]. apply Hy. unfold held. rewrite El. assumption.
    - injection Et as <- <-. apply Hy. rewrite <- Bu. exact Hx. }
  destruct (k_ind (snd s)).
  - destruct (k_gind (snd s)) as [n|]; [|injection E as <- <-; left; exact Hx].
    destruct (create_list fail (map DOne (seq 0 n)) s) as [t rt] eqn:Et.
    destruct (create_list_spec fail _ s t rt (i_wf _ I) Et) as (Bt & new & X & St).
    destruct rt as [e|hs]; [injection E as <- <-; left; rewrite <- Bt; exact Hx|].
    unfold set_pid at 1, set_bk at 1 in E. refine (Hc _ (snd t) _ _ _ E); cbn; [apply X|apply X|].
    intros y Hy. right. destruct X as (_ & _ & _ & _ & _ & _ & _ & F). destruct St as [-> HL].
    unfold held in Hy. cbn in Hy. rewrite <- (NoDup_combine_keys hs _ HL) in Hy. apply in_map_iff in Hy as (p & <- & Hp).
    rewrite Forall_forall in F. apply F. rewrite <- in_rev. assumption.
  - unfold ret in E. refine (Hc s (snd s) (i_wf _ I) (le_n _) _ E). auto.
Qed.
Lemma ready_fresh fail s s' r h : Inv s -> In h (map fst (n_proj (fst s))) -> ~ In h (held (snd s)) ->
  make_ready fail s = (s', r) -> ~ In h (held (snd s')).
Proof.
  intros I Hi Hn E Hx. destruct (ready_held fail s s' r I E h Hx) as [|Hx']; [contradiction|].
  destruct (i_wf _ I) as (_ & L & _). apply in_map_iff in Hi as (p & <- & Hp). rewrite Forall_forall in L. specialize (L p Hp). lia.
Qed.
(** a live projector that the backend does not hold is never deleted by any later call *)
Lemma orphan_op fail o s h : Inv s -> In h (map fst (n_proj (fst s))) -> ~ In h (held (snd s)) ->
  In h (map fst (n_proj (fst (fst (do_op fail o s))))) /\ ~ In h (held (snd (fst (do_op fail o s)))).
Proof.
  intros I Hi Hn.
  assert (Hd : forall s' r, dispose s = (s', r) -> In h (map fst (n_proj (fst s'))) /\ ~ In h (held (snd s'))).
  { intros s' r E. destruct (dispose_spec s s' r I E) as [(_ & -> & _)|(_ & _ & _ & _ & _ & _ & P & K)]; [auto|].
    rewrite K. simpl. split; [|tauto]. apply in_map_iff in Hi as (p & <- & Hp). apply in_map. apply P. auto. }
  assert (Hr : forall s' r, make_ready fail s = (s', r) -> In h (map fst (n_proj (fst s'))) /\ ~ In h (held (snd s'))).
  { intros s' r E. destruct (ready_spec fail s s' r I E) as (I' & _ & _ & _ & _ & _ & _ & _ & (new & Hnew) & _).
    split; [rewrite Hnew, map_app, in_app_iff; auto|]. revert E. apply ready_fresh; assumption. }
  destruct (do_op fail o s) as [s' r] eqn:E. cbn [fst]. destruct o; cbn [do_op] in E.
  - pose proof (init_native n ind pre post s) as En. rewrite E in En. cbn [fst] in En. rewrite En. split; [assumption|].
    destruct pre; [injection E as <- <-; assumption|].
    unfold initialize_geometry, bind, set_bk, dispose, get_bk in E. cbn in E. unfold bind, ret in E. cbn in E.
    destruct post; injection E as <- <-; cbn; auto.
  - eauto.
  - destruct (project_spec fail _ _ s s' r I E) as (_ & _ & _ & _ & _ & s1 & E1 & P & K & _). rewrite P, K. eauto.
  - destruct (project_direct_spec fail _ _ s s' r I E) as (_ & _ & _ & s1 & E1 & P & K & _). rewrite P, K. eauto.
  - eauto.
  - unfold del, bind, get_bk in E. destruct (k_ready (snd s)); [eauto|]. injection E as <- <-. auto.
Qed.

(** * General leak statement *)
(** the handles held when the geometry is set again are alive after every later history: nothing ever frees them *)
Theorem C53_reinit_leaks_forever fail ops1 n ind post ops2 h : let s := run_ops fail ops1 (native0, bk0) in
  In h (held (snd s)) ->
  In h (map fst (n_proj (fst (run_ops fail (ops1 ++ OInit n ind false post :: ops2) (native0, bk0))))).
Proof.
  cbv zeta. intros Hh. rewrite run_ops_app. cbn [run_ops].
  pose proof (Inv_ops fail ops1 _ Inv0) as I. set (s := run_ops fail ops1 (native0, bk0)) in *.
  destruct (C53_reinit_leaks fail s n ind post I) as [P K].
  assert (G : forall ops t, Inv t -> In h (map fst (n_proj (fst t))) -> ~ In h (held (snd t)) -> In h (map fst (n_proj (fst (run_ops fail ops t))))).
  { induction ops as [|o ops IH]; intros t It Hi Hn; [assumption|]. cbn [run_ops]. destruct (orphan_op fail o t h It Hi Hn) as [Hi' Hn'].
    apply IH; auto. apply Inv_op. assumption. }
  apply G; [apply Inv_op; assumption| |rewrite K; intros []]. rewrite P. apply (i_in _ I). assumption.
Qed.
(** documented: "Dispose of the backend" on a new geometry; claimed property: at every point the live projectors are held *)
Definition reinit_frees : Prop := forall ops, let s := run_ops no_fail ops (native0, bk0) in
  forall h, In h (map fst (n_proj (fst s))) -> In h (held (snd s)).
Theorem C53_reinit_frees_refuted : ~ reinit_frees.
Proof.
  intros H. specialize (H [OInit 3 true false false; OReady; OInit 3 true false false] 0%nat). cbv in H. apply H. intuition.
Qed.
(** how many: re-setting the geometry of a backend with n individual projectors leaks n+1 of them *)
Example C53_leak_count : List.length (n_proj (fst (run_ops no_fail
   [OInit 3 true false false; OReady; OInit 3 true false false; OReady; ODispose] (native0, bk0)))) = 4%nat.
Proof. reflexivity. Qed.
(** A failing native creation leaks too: the individual projectors made before the failure are not recorded *)
Definition failure_leaks_nothing : Prop := forall fail ops, no_reinit ops (native0, bk0) ->
  n_proj (fst (run_ops fail (ops ++ [ODispose]) (native0, bk0))) = [].
Theorem C52_failed_creation_refuted : ~ failure_leaks_nothing.
Proof.
  intros H. specialize (H (fun k => Nat.eqb k 2) [OInit 3 true false false; OReady] ltac:(vm_compute; auto)). vm_compute in H. discriminate.
Qed.
(** dispose of a backend whose geometry was never set raises AttributeError instead of doing nothing *)
Theorem C52_dispose_fresh_raises : snd (dispose (native0, bk0)) = inl (Py AttributeError).
Proof. reflexivity. Qed.

(** * C109: the angle used by a single-angle projection *)
Lemma nth_expected b n q : k_ind b = true -> k_gind b = Some n ->
  nth q (expected b) DAll = if Nat.ltb q n then DOne q else DAll.
Proof.
  intros Hi Hg. unfold expected. rewrite Hi, Hg. destruct (Nat.ltb_spec q n) as [Hq|Hq].
  - rewrite app_nth1 by (rewrite map_length, seq_length; lia). rewrite nth_indep with (d' := DOne 0) by (rewrite map_length, seq_length; lia).
    rewrite map_nth, seq_nth by lia. reflexivity.
  - rewrite app_nth2 by (rewrite map_length, seq_length; lia). rewrite map_length, seq_length.
    destruct (q - n)%nat as [|k]; [reflexivity|]. destruct k; reflexivity.
Qed.
(** a successful call for the angle i, 0 <= i < n, runs the projector of that very angle, with the matching geometry *)
Theorem C109_single_angle fail ops ok i n s' : let s := run_ops fail ops (native0, bk0) in
  k_gind (snd s) = Some n -> (0 <= i < Z.of_nat n)%Z ->
  (project fail ok (Some i) s = (s', inr tt) \/ project_direct fail ok (Some i) s = (s', inr tt)) ->
  n_runs (fst s') = (DOne (Z.to_nat i), DOne (Z.to_nat i)) :: n_runs (fst s).
Proof.
  cbv zeta. intros Hg Hi E. pose proof (Inv_ops fail ops _ Inv0) as I. set (s := run_ops fail ops (native0, bk0)) in *.
  assert (Hpi : forall m, (n <= m)%nat -> py_index m i = Some (Z.to_nat i)).
  { intros m Hm. unfold py_index. destruct (Z.leb_spec 0 i); [|lia]. destruct (Z.ltb_spec i (Z.of_nat m)); [reflexivity|lia]. }
  assert (Hlt : Nat.ltb (Z.to_nat i) n = true) by (apply Nat.ltb_lt; lia).
  destruct E as [E|E].
  - destruct (project_spec fail _ _ s s' _ I E) as (_ & _ & _ & _ & _ & s1 & _ & _ & _ & n0 & p & q & K1 & K2 & Hp & Hq & ->).
    assert (n0 = n) by congruence. subst n0. rewrite Hpi in Hp by lia. rewrite Hpi in Hq by lia. injection Hp as <-. injection Hq as <-.
    rewrite (nth_expected _ n), Hlt by assumption. reflexivity.
  - destruct (project_direct_spec fail _ _ s s' _ I E) as (_ & _ & _ & s1 & _ & _ & _ & n0 & q & K1 & K2 & Hq & ->).
    assert (n0 = n) by congruence. subst n0. rewrite Hpi in Hq by lia. injection Hq as <-.
    rewrite (nth_expected _ n), Hlt by assumption. destruct (Z.ltb_spec i 0); [lia|]. reflexivity.
Qed.
(** a call for all the angles always runs the all-angle projector *)
Theorem C109_all_angles fail ops ok s' : let s := run_ops fail ops (native0, bk0) in
  (project fail ok None s = (s', inr tt) \/ project_direct fail ok None s = (s', inr tt)) ->
  n_runs (fst s') = (DAll, DAll) :: n_runs (fst s).
Proof.
  cbv zeta. intros E. pose proof (Inv_ops fail ops _ Inv0) as I. destruct E as [E|E].
  - destruct (project_spec fail _ _ _ s' _ I E) as (_ & _ & _ & _ & _ & s1 & _ & _ & _ & H). exact H.
  - destruct (project_direct_spec fail _ _ _ s' _ I E) as (_ & _ & _ & s1 & _ & _ & _ & H). exact H.
Qed.
(** negative indices: the geometry of the angle n+i is combined with the projector of the angle n+i+1 (of all angles for -1) *)
Theorem C109_negative_index fail ops ok i n s' : let s := run_ops fail ops (native0, bk0) in
  k_gind (snd s) = Some n -> (- Z.of_nat n <= i < 0)%Z -> project fail ok (Some i) s = (s', inr tt) ->
  n_runs (fst s') = (DOne (Z.to_nat (Z.of_nat n + i)), if (i =? -1)%Z then DAll else DOne (S (Z.to_nat (Z.of_nat n + i)))) :: n_runs (fst s).
Proof.
  cbv zeta. intros Hg Hi E. pose proof (Inv_ops fail ops _ Inv0) as I. set (s := run_ops fail ops (native0, bk0)) in *.
  destruct (project_spec fail _ _ s s' _ I E) as (_ & _ & _ & _ & _ & s1 & _ & _ & _ & n0 & p & q & K1 & K2 & Hp & Hq & ->).
  assert (n0 = n) by congruence. subst n0. unfold py_index in Hp, Hq.
  destruct (Z.leb_spec 0 i); [lia|]. destruct (Z.leb_spec (- Z.of_nat n) i); [|lia]. destruct (Z.leb_spec (- Z.of_nat (S n)) i); [|lia].
  assert (Eq : q = Z.to_nat (Z.of_nat (S n) + i)) by congruence. assert (Ep : p = Z.to_nat (Z.of_nat n + i)) by congruence.
  clear Hp Hq. rewrite (nth_expected _ n) by assumption.
  destruct (Z.eqb_spec i (-1)) as [->|].
  - assert (El : Nat.ltb q n = false) by (apply Nat.ltb_ge; lia). rewrite El, Ep. reflexivity.
  - assert (El : Nat.ltb q n = true) by (apply Nat.ltb_lt; lia). rewrite El, Ep, Eq.
    do 2 f_equal. f_equal. lia.
Qed.
(** claimed: whenever a single-angle projection succeeds, the projector used is that of one angle, the geometry's *)
Definition angle_projector_matches (proj : (nat -> bool) -> bool -> option Z -> M unit) : Prop :=
  forall fail ops ok i s', proj fail ok (Some i) (run_ops fail ops (native0, bk0)) = (s', inr tt) ->
    exists p rest, n_runs (fst s') = (DOne p, DOne p) :: rest.
Theorem C109_negative_index_refuted : ~ angle_projector_matches project.
Proof.
  intros H. specialize (H no_fail [OInit 3 true false false] true (-1)%Z
    (fst (project no_fail true (Some (-1)%Z) (run_ops no_fail [OInit 3 true false false] (native0, bk0)))) ltac:(vm_compute; reflexivity)).
  destruct H as (p & rest & E). vm_compute in E. discriminate.
Qed.
Theorem C109_direct_overrun_refuted : ~ angle_projector_matches project_direct.
Proof.
  intros H. specialize (H no_fail [OInit 3 true false false] true 3%Z
    (fst (project_direct no_fail true (Some 3%Z) (run_ops no_fail [OInit 3 true false false] (native0, bk0)))) ltac:(vm_compute; reflexivity)).
  destruct H as (p & rest & E). vm_compute in E. discriminate.
Qed.
(** an index outside -n .. n-1 is refused by the traditional interface: nothing is run *)
Theorem C109_out_of_range fail ops ok i n : let s := run_ops fail ops (native0, bk0) in
  k_gind (snd s) = Some n -> (i < - Z.of_nat n \/ Z.of_nat n <= i)%Z ->
  exists s' e, project fail ok (Some i) s = (s', inl e) /\ n_runs (fst s') = n_runs (fst s).
Proof.
  cbv zeta. intros Hg Hi. pose proof (Inv_ops fail ops _ Inv0) as I. set (s := run_ops fail ops (native0, bk0)) in *.
  destruct (project fail ok (Some i) s) as [s' r] eqn:E.
  destruct (project_spec fail _ _ s s' _ I E) as (_ & _ & _ & _ & _ & s1 & _ & _ & _ & H). destruct r as [e|u]; [eauto|].
  destruct H as (n0 & p & q & _ & K2 & Hp & _). exfalso. assert (n0 = n) by congruence. subst n0. unfold py_index in Hp.
  destruct (Z.leb_spec 0 i).
  - destruct (Z.ltb_spec i (Z.of_nat n)); [lia|discriminate].
  - destruct (Z.leb_spec (- Z.of_nat n) i); [lia|discriminate].
Qed.
(** a projection that would have run is refused with a ValueError, before anything runs, when the shapes of the data do not fit *)
Theorem C109_direct_bad_data fail ops ai s' : let s := run_ops fail ops (native0, bk0) in
  project_direct fail true ai s = (s', inr tt) ->
  exists s'', project_direct fail false ai s = (s'', inl (Py ValueError)) /\ n_runs (fst s'') = n_runs (fst s).
Proof.
  cbv zeta. intros H. pose proof (Inv_ops fail ops _ Inv0) as I. set (s := run_ops fail ops (native0, bk0)) in *.
  destruct (project_direct fail false ai s) as [s'' r] eqn:E.
  pose proof (project_direct_spec fail _ _ s s'' _ I E) as (_ & _ & _ & s1 & _ & _ & _ & Hr).
  assert (r = inl (Py ValueError)) as ->.
  { unfold project_direct, bind in H, E. destruct (make_ready fail s) as [t1 [e|[]]]; [discriminate|].
    destruct (select_direct ai t1) as [t2 [e|g]]; [discriminate|]. cbn in E. congruence. }
  exists s''. split; [reflexivity|exact Hr].
Qed.
(** not vacuous: all the angles of an initialised back-end *)
Example direct_bad_data_applies : snd (project_direct no_fail true None (run_ops no_fail [OInit 3 true false false] (native0, bk0))) = inr tt.
Proof. vm_compute. reflexivity. Qed.
