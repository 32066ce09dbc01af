(** Solver objects: construction, isolation from the caller's objects, repeated use, threads (C196-C202). *)
From Coq Require Import Ascii String FunctionalExtensionality Permutation.
From Verif Require Import Sums DataTermsSpec DataTermsModel DataTermsProofs SolversModel SolversSpec SolversGeneric SolversProps SolverObjModel.
Open Scope R_scope.

(** * C196: which data terms a solver accepts *)
(** the names a user may write *)
Definition l2_names : list string := ["l2"; "L2"]%string.
Definition l1_names : list string := ["l1"; "L1"]%string.
Definition kl_names : list string := ["kl"; "kL"; "Kl"; "KL"]%string.

Lemma lower_char_cases c : lower_char c = "l"%char \/ lower_char c = "k"%char \/ lower_char c = "2"%char \/ lower_char c = "1"%char ->
  (lower_char c = "l"%char <-> c = "l"%char \/ c = "L"%char) /\ (lower_char c = "k"%char <-> c = "k"%char \/ c = "K"%char) /\
  (lower_char c = "2"%char <-> c = "2"%char) /\ (lower_char c = "1"%char <-> c = "1"%char).
Proof.
  destruct c as [[] [] [] [] [] [] [] []]; vm_compute;
    (intros [H | [H | [H | H]]]; try discriminate H); repeat split; intros; try reflexivity; try discriminate;
    (try (left; reflexivity)); (try (right; reflexivity));
    repeat match goal with H : _ \/ _ |- _ => destruct H end; try discriminate; try reflexivity.
Qed.

Lemma lower_two s c1 c2 : lower s = String c1 (String c2 EmptyString) ->
  exists d1 d2, s = String d1 (String d2 EmptyString) /\ lower_char d1 = c1 /\ lower_char d2 = c2.
Proof.
  destruct s as [|d1 [|d2 [|d3 s]]]; simpl; try discriminate. intros [= <- <-]. exists d1, d2. auto.
Qed.
Lemma is_l2_name s : lower s = "l2"%string <-> In s l2_names.
Proof.
  split.
  - intros H. destruct (lower_two _ _ _ H) as (d1 & d2 & -> & H1 & H2).
    apply (lower_char_cases d1) in H1 as H1'; [|left; exact H1]. 
    destruct (lower_char_cases d2) as (_ & _ & K & _); [right; right; left; exact H2|]. apply K in H2. subst d2.
    destruct H1' as [-> | ->]; unfold l2_names; simpl; auto.
  - unfold l2_names; simpl. intros [<- | [<- | []]]; reflexivity.
Qed.
Lemma is_l1_name s : lower s = "l1"%string <-> In s l1_names.
Proof.
  split.
  - intros H. destruct (lower_two _ _ _ H) as (d1 & d2 & -> & H1 & H2).
    apply (lower_char_cases d1) in H1 as H1'; [|left; exact H1]. 
    destruct (lower_char_cases d2) as (_ & _ & _ & K); [right; right; right; exact H2|]. apply K in H2. subst d2.
    destruct H1' as [-> | ->]; unfold l1_names; simpl; auto.
  - unfold l1_names; simpl. intros [<- | [<- | []]]; reflexivity.
Qed.
Lemma is_kl_name s : lower s = "kl"%string <-> In s kl_names.
Proof.
  split.
  - intros H. destruct (lower_two _ _ _ H) as (d1 & d2 & -> & H1 & H2).
    destruct (lower_char_cases d1) as (_ & K & _); [right; left; exact H1|]. apply K in H1.
    destruct (lower_char_cases d2) as (K2 & _); [left; exact H2|]. apply K2 in H2.
    destruct H1 as [-> | ->], H2 as [-> | ->]; unfold kl_names; simpl; auto.
  - unfold kl_names; simpl. intros [<- | [<- | [<- | [<- | []]]]]; reflexivity.
Qed.

(** the last solver that was made, and its two data terms *)
Definition last_solver (w : world) : option sobj := nth_error (w_solvers w) (length (w_solvers w) - 1).
Definition its_term (w : world) (s : sobj) : dobj := fetch (w_heap w) (so_dt s).
Definition its_test_term (w : world) (s : sobj) : dobj := fetch (w_heap w) (so_test s).
(** "SOLVER(data_term=a, data_term_test=at)" succeeds and both terms hold the given values *)
Definition makes (w : world) (e : event) (t test : dobj) : Prop :=
  let '(w', o) := step w e in
  o = O_none /\ length (w_solvers w') = S (length (w_solvers w)) /\
  exists s, last_solver w' = Some s /\ its_term w' s = t /\ its_test_term w' s = test.
Definition fails (w : world) (e : event) (err : py_err) : Prop := step w e = (w, O_error err).

Lemma fetch_new h o : fetch (h ++ [o]) (length h) = o.
Proof. unfold fetch. rewrite app_nth2 by lia. rewrite Nat.sub_diag. reflexivity. Qed.
Lemma fetch_old h h' l : (l < length h)%nat -> fetch (h ++ h') l = fetch h l.
Proof. intros. unfold fetch. apply app_nth1. assumption. Qed.
Lemma store_length l o h : length (store l o h) = length h.
Proof. revert l; induction h as [|x h IH]; intros [|l]; simpl; auto. Qed.
Lemma fetch_store_same l o h : (l < length h)%nat -> fetch (store l o h) l = o.
Proof. revert l; induction h as [|x h IH]; intros [|l] Hl; simpl in *; try lia; [reflexivity|]. apply IH. lia. Qed.
Lemma fetch_store_other l l' o h : l <> l' -> fetch (store l o h) l' = fetch h l'.
Proof. revert l l'; induction h as [|x h IH]; intros [|l] [|l'] H; simpl; auto; try congruence. apply IH. congruence. Qed.

Definition iterative (c : sclass) : Prop := c <> C_FBP.
Definition new_term (k : kind) : dobj := mkDO (new_dterm k None) [].

Lemma named_spec c s :
  (In s l2_names -> named_kind c s = Some K_l2) /\
  (c <> C_FISTA -> In s kl_names -> named_kind c s = Some K_KL) /\
  (c = C_PDHG -> In s l1_names -> named_kind c s = Some K_l1) /\
  (~ In s l2_names -> (c = C_FISTA \/ ~ In s kl_names) -> (c <> C_PDHG \/ ~ In s l1_names) -> named_kind c s = None).
Proof.
  repeat split.
  - intros H. apply is_l2_name in H. unfold named_kind. rewrite H. reflexivity.
  - intros Hc H. apply is_kl_name in H. unfold named_kind. rewrite H. destruct c; try reflexivity. contradiction.
  - intros -> H. apply is_l1_name in H. unfold named_kind. rewrite H. reflexivity.
  - intros H2 Hk H1. unfold named_kind. destruct (String.eqb_spec (lower s) "l2") as [E|_]; [apply is_l2_name in E; contradiction|].
    destruct c; try reflexivity;
      (destruct Hk as [Hk|Hk]; [discriminate Hk|]);
      (destruct (String.eqb_spec (lower s) "kl") as [E|_]; [apply is_kl_name in E; contradiction|]); try reflexivity.
    destruct H1 as [H1|H1]; [contradiction|].
    destruct (String.eqb_spec (lower s) "l1") as [E|_]; [apply is_l1_name in E; contradiction|]. reflexivity.
Qed.

Lemma makes_intro w c a atest regs tol relax restart h l lt t test :
  init_terms c (resolve w a) (option_map (resolve w) atest) (w_heap w) = inr (h, (l, lt)) -> fetch h l = t -> fetch h lt = test ->
  makes w (E_solver c a atest regs tol relax restart) t test.
Proof.
  intros H Ht Hte. unfold makes. cbn [step]. rewrite H. split; [reflexivity|]. cbn [w_solvers w_heap]. split; [rewrite app_length; simpl; lia|].
  exists (mkSO c l lt regs tol relax restart). unfold last_solver. cbn [w_solvers]. split.
  - rewrite app_length; simpl. replace (length (w_solvers w) + 1 - 1)%nat with (length (w_solvers w)) by lia.
    rewrite nth_error_app2 by lia. rewrite Nat.sub_diag. reflexivity.
  - split; assumption.
Qed.

(** names: case does not matter, "l2" for every solver, "kl" for all but FISTA, "l1" for PDHG only; both terms are fresh *)
Theorem C196_names : forall w c s regs tol relax restart k, iterative c ->
  (In s l2_names /\ k = K_l2 \/ c <> C_FISTA /\ In s kl_names /\ k = K_KL \/ c = C_PDHG /\ In s l1_names /\ k = K_l1) ->
  makes w (E_solver c (U_str s) None regs tol relax restart) (new_term k) (new_term k).
Proof.
  intros w c s regs tol relax restart k Hc Hk.
  assert (E : named_kind c s = Some k).
  { destruct (named_spec c s) as (H1 & H2 & H3 & _). destruct Hk as [[H ->] | [[H [H' ->]] | [H [H' ->]]]]; auto. }
  eapply makes_intro.
  - cbn [resolve option_map]. unfold init_terms. replace (match c with C_FBP => _ | _ => (A_str s, None) end) with (A_str s, @None dt_arg) by (destruct c; try reflexivity; contradiction Hc; reflexivity).
    unfold init_data_term. rewrite E. cbn [deepcopy]. unfold deepcopy. reflexivity.
  - rewrite fetch_old by (rewrite app_length; simpl; lia). apply fetch_new.
  - rewrite fetch_new. apply fetch_new.
Qed.

Theorem C196_unknown_names : forall w c s atest regs tol relax restart, iterative c ->
  ~ In s l2_names -> (c = C_FISTA \/ ~ In s kl_names) -> (c <> C_PDHG \/ ~ In s l1_names) ->
  fails w (E_solver c (U_str s) atest regs tol relax restart) ValueError.
Proof.
  intros w c s atest regs tol relax restart Hc H1 H2 H3. unfold fails. cbn [step resolve].
  destruct (named_spec c s) as (_ & _ & _ & E). specialize (E H1 H2 H3).
  unfold init_terms. replace (match c with C_FBP => _ | _ => (A_str s, option_map (resolve w) atest) end) with (A_str s, option_map (resolve w) atest) by (destruct c; try reflexivity; contradiction Hc; reflexivity).
  unfold init_data_term at 1. rewrite E. reflexivity.
Qed.

(** instances: PDHG takes every data term, FISTA the least-squares family, the others that family and Kullback-Leibler.
    The solver's terms hold the same values as the instance; a test term of its own is taken from the other argument *)
Definition least_squares (k : kind) : Prop := k = K_l2 \/ (exists w, k = K_wl2 w) \/ exists e, k = K_l2b e.
Definition allowed (c : sclass) (k : kind) : Prop :=
  match c with C_PDHG => True | C_FISTA => least_squares k | _ => least_squares k \/ k = K_KL end.
Lemma accepts_allowed c k : accepts_kind c k = true <-> allowed c k.
Proof.
  unfold accepts_kind, allowed, least_squares, is_l2_based, is_KL.
  destruct c, k; simpl; split; intros H; try exact I; try reflexivity; try discriminate; eauto 6;
    repeat match goal with H : _ \/ _ |- _ => destruct H | H : exists _, _ |- _ => destruct H end; discriminate.
Qed.
Definition variable (w : world) (u : nat) (o : dobj) : Prop :=
  exists l, nth_error (w_user w) u = Some l /\ (l < length (w_heap w))%nat /\ fetch (w_heap w) l = o.

Theorem C196_instances : forall w c u o regs tol relax restart, iterative c -> variable w u o ->
  (allowed c (dt_kind (ob_t o)) -> makes w (E_solver c (U_var u) None regs tol relax restart) o o) /\
  (~ allowed c (dt_kind (ob_t o)) -> fails w (E_solver c (U_var u) None regs tol relax restart) ValueError).
Proof.
  intros w c u o regs tol relax restart Hc (l & Hl & Hlt & Ho).
  assert (E0 : forall a (at' : option dt_arg), match c with C_FBP => (A_str "l2", None) | _ => (a, at') end = (a, at')) by (intros; destruct c; try reflexivity; contradiction Hc; reflexivity).
  split; intros Ha.
  - eapply makes_intro.
    + cbn [resolve option_map]. rewrite Hl. unfold init_terms. rewrite E0. unfold init_data_term at 1. rewrite Ho.
      apply accepts_allowed in Ha. rewrite Ha. unfold deepcopy. reflexivity.
    + rewrite fetch_old by (rewrite app_length; simpl; lia). rewrite fetch_new. exact Ho.
    + rewrite fetch_new, fetch_new. exact Ho.
  - unfold fails. cbn [step resolve option_map]. rewrite Hl. unfold init_terms. rewrite E0. unfold init_data_term at 1. rewrite Ho.
    destruct (accepts_kind c (dt_kind (ob_t o))) eqn:E; [apply accepts_allowed in E; contradiction|]. reflexivity.
Qed.

Theorem C196_test_term : forall w c u v o ot regs tol relax restart, iterative c -> variable w u o -> variable w v ot ->
  allowed c (dt_kind (ob_t o)) ->
  (allowed c (dt_kind (ob_t ot)) -> makes w (E_solver c (U_var u) (Some (U_var v)) regs tol relax restart) o ot) /\
  (~ allowed c (dt_kind (ob_t ot)) -> fails w (E_solver c (U_var u) (Some (U_var v)) regs tol relax restart) ValueError).
Proof.
  intros w c u v o ot regs tol relax restart Hc (l & Hl & Hlt & Ho) (lv & Hlv & Hltv & Hov) Ha0. apply accepts_allowed in Ha0.
  assert (E0 : forall a (at' : option dt_arg), match c with C_FBP => (A_str "l2", None) | _ => (a, at') end = (a, at')) by (intros; destruct c; try reflexivity; contradiction Hc; reflexivity).
  split; intros Ha.
  - eapply makes_intro.
    + cbn [resolve option_map]. rewrite Hl, Hlv. unfold init_terms. rewrite E0. unfold init_data_term at 1. rewrite Ho, Ha0.
      unfold deepcopy at 1. unfold init_data_term. rewrite fetch_old by exact Hltv. rewrite Hov. apply accepts_allowed in Ha. rewrite Ha. unfold deepcopy. reflexivity.
    + rewrite !fetch_old by (rewrite ?app_length; simpl; lia). rewrite fetch_new. exact Ho.
    + rewrite !fetch_new. rewrite fetch_old by exact Hltv. exact Hov.
  - unfold fails. cbn [step resolve option_map]. rewrite Hl, Hlv. unfold init_terms. rewrite E0. unfold init_data_term at 1. rewrite Ho, Ha0.
    unfold deepcopy at 1. unfold init_data_term. rewrite fetch_old by exact Hltv. rewrite Hov.
    destruct (accepts_kind c (dt_kind (ob_t ot))) eqn:E; [apply accepts_allowed in E; contradiction|]. reflexivity.
Qed.

(** FBP ignores its data_term argument, whatever it is *)
Theorem C196_fbp : forall w a atest regs tol relax restart,
  makes w (E_solver C_FBP a atest regs tol relax restart) (new_term K_l2) (new_term K_l2).
Proof.
  intros. eapply makes_intro; [unfold init_terms, init_data_term; cbn; unfold deepcopy; reflexivity| |].
  - rewrite fetch_old by (rewrite app_length; simpl; lia). apply fetch_new.
  - rewrite fetch_new. apply fetch_new.
Qed.

Example C196_instance :
  makes start (E_solver C_PDHG (U_str "L1") None [] None 1 None) (new_term K_l1) (new_term K_l1) /\
  fails start (E_solver C_SIRT (U_str "l1") None [] None 1 None) ValueError /\
  fails start (E_solver C_FISTA (U_str "KL") None [] None 1 None) ValueError.
Proof.
  split; [|split].
  - apply C196_names; [discriminate|]. right. right. repeat split. right. left. reflexivity.
  - apply C196_unknown_names; [discriminate|..]; [| |left; discriminate]; [|right]; intros H; repeat (destruct H as [H|H]; [discriminate|]); exact H.
  - apply C196_unknown_names; [discriminate| |left; reflexivity|left; discriminate]. intros H; repeat (destruct H as [H|H]; [discriminate|]); exact H.
Qed.

(** * C197: solvers work on their own copies *)
Definition reachable (w : world) : Prop := exists es, w = run start es.
Definition solver_locs (s : sobj) : list nat := [so_dt s; so_test s].
Definition all_locs (w : world) : list nat := w_user w ++ flat_map solver_locs (w_solvers w).
(** every variable and every solver's term is an instance of its own *)
Definition disjoint_world (w : world) : Prop := NoDup (all_locs w) /\ Forall (fun l => (l < length (w_heap w))%nat) (all_locs w).

Lemma init_data_term_new c a h h' l : init_data_term c a h = inr (h', l) -> exists o, h' = h ++ [o] /\ l = length h /\
  (forall l0, a = A_obj l0 -> o = fetch h l0).
Proof.
  unfold init_data_term, deepcopy. destruct a as [s|l0|].
  - destruct (named_kind c s) as [k|]; intros [= <- <-]. eexists. repeat split. discriminate.
  - destruct (accepts_kind c _); intros [= <- <-]. eexists. repeat split. intros l1 [= ->]. reflexivity.
  - discriminate.
Qed.
Lemma init_terms_new c a atest h h' l lt : init_terms c a atest h = inr (h', (l, lt)) ->
  exists os, h' = h ++ os /\ (length h <= l)%nat /\ (length h <= lt)%nat /\ l <> lt /\ (l < length h')%nat /\ (lt < length h')%nat.
Proof.
  unfold init_terms. destruct (match c with C_FBP => _ | _ => _ end) as [a' atest'].
  destruct (init_data_term c a' h) as [e|[h1 l1]] eqn:E1; [discriminate|].
  destruct (init_data_term_new _ _ _ _ _ E1) as (o1 & -> & -> & _).
  destruct atest' as [at'|].
  - destruct (init_data_term c at' (h ++ [o1])) as [e|[h2 l2]] eqn:E2; [discriminate|].
    destruct (init_data_term_new _ _ _ _ _ E2) as (o2 & -> & -> & _). unfold deepcopy. intros [= <- <- <-].
    eexists. rewrite <- !app_assoc. split; [reflexivity|]. rewrite !app_length. simpl. repeat split; lia.
  - unfold deepcopy. intros [= <- <- <-]. eexists. rewrite <- !app_assoc. split; [reflexivity|]. rewrite !app_length. simpl. repeat split; lia.
Qed.

Lemma NoDup_mid {A} (l : list A) a : NoDup l -> ~ In a l -> NoDup (l ++ [a]).
Proof. intros Hl Ha. apply NoDup_rev in Hl. rewrite <- (rev_involutive (l ++ [a])). apply NoDup_rev. rewrite rev_app_distr. simpl.
  constructor; [|exact Hl]. rewrite <- in_rev. exact Ha. Qed.
Lemma NoDup_app_swap {A} (l l' : list A) : NoDup (l ++ l') -> NoDup (l' ++ l).
Proof. intros H. apply (Permutation_NoDup (Permutation_app_comm l l')). exact H. Qed.

Lemma call_length s a h : length (fst (call s a h)) = length h.
Proof.
  unfold call. destruct (info_error _ _); [simpl; apply store_length|]. destruct (ca_btest a); [|simpl; apply store_length].
  destruct (backgrounds_differ _ _); simpl; rewrite ?store_length; reflexivity.
Qed.

Lemma step_disjoint w e : disjoint_world w -> disjoint_world (fst (step w e)).
Proof.
  intros [HN HB]. destruct e as [k bg shape|u d b sigma|c a atest regs tol relax restart|i a]; cbn [step].
  - unfold disjoint_world, all_locs in *. cbn [fst w_user w_solvers w_heap]. rewrite Forall_forall in HB.
    assert (HP : Permutation ((w_user w ++ [length (w_heap w)]) ++ flat_map solver_locs (w_solvers w))
                   ((w_user w ++ flat_map solver_locs (w_solvers w)) ++ [length (w_heap w)])).
    { rewrite <- !app_assoc. apply Permutation_app_head. apply Permutation_app_comm. }
    split.
    + apply (Permutation_NoDup (Permutation_sym HP)). apply NoDup_mid; [exact HN|]. intros H. apply HB in H. lia.
    + rewrite Forall_forall. intros l Hl. apply (Permutation_in _ HP) in Hl. rewrite app_length. simpl. apply in_app_iff in Hl.
      destruct Hl as [Hl|[<-|[]]]; [apply HB in Hl|]; lia.
  - destruct (nth_error (w_user w) u) as [l|]; [|split; assumption]. split; [exact HN|]. cbn [fst w_heap]. rewrite store_length. exact HB.
  - destruct (init_terms _ _ _ _) as [e|[h [l lt]]] eqn:E; [split; assumption|].
    destruct (init_terms_new _ _ _ _ _ _ _ E) as (os & Hh & H1 & H2 & H3 & H4 & H5).
    unfold disjoint_world, all_locs in *. cbn [fst w_user w_solvers w_heap]. rewrite flat_map_app. cbn [flat_map solver_locs so_dt so_test app]. rewrite app_assoc.
    rewrite Forall_forall in HB. split.
    + change [l; lt] with ([l] ++ [lt]). rewrite app_assoc. apply NoDup_mid; [apply NoDup_mid; [exact HN|]|].
      * intros H. apply HB in H. lia.
      * intros H. apply in_app_iff in H. destruct H as [H|[H|[]]]; [apply HB in H; lia|congruence].
    + rewrite Forall_forall. intros x Hx. apply in_app_iff in Hx. destruct Hx as [Hx|[<-|[<-|[]]]]; try assumption. apply HB in Hx.
      rewrite Hh, app_length. lia.
  - destruct (nth_error (w_solvers w) i) as [s|]; [|split; assumption].
    destruct (call s a (w_heap w)) as [h r] eqn:E. split; [exact HN|]. cbn [fst w_heap].
    replace (length h) with (length (w_heap w)); [exact HB|]. rewrite <- (call_length s a (w_heap w)), E. reflexivity.
Qed.
Lemma run_app w es es' : run w (es ++ es') = run (run w es) es'.
Proof. unfold run. apply fold_left_app. Qed.
Lemma run_snoc w es e : run w (es ++ [e]) = fst (step (run w es) e).
Proof. rewrite run_app. reflexivity. Qed.
Lemma run_disjoint w es : disjoint_world w -> disjoint_world (run w es).
Proof. revert w; induction es as [|e es IH]; intros w H; [exact H|]. apply (IH (fst (step w e))). apply step_disjoint. exact H. Qed.
Lemma reachable_disjoint w : reachable w -> disjoint_world w.
Proof. intros [es ->]. apply run_disjoint. split; constructor. Qed.
Lemma reachable_run w es : reachable w -> reachable (run w es).
Proof. intros [es0 ->]. exists (es0 ++ es). symmetry. apply run_app. Qed.

Lemma NoDup_app_sep {A} (l l' : list A) x : NoDup (l ++ l') -> In x l -> In x l' -> False.
Proof. induction l as [|a l IH]; intros HN H1 H2; [exact H1|]. simpl in HN. inversion HN as [|y ys Hy Hys]; subst.
  destruct H1 as [->|H1]; [apply Hy; apply in_app_iff; right; exact H2|]. exact (IH Hys H1 H2). Qed.
Lemma NoDup_app_r {A} (l l' : list A) : NoDup (l ++ l') -> NoDup l'.
Proof. induction l as [|a l IH]; intros H; [exact H|]. inversion H; subst. apply IH. assumption. Qed.
Lemma NoDup_app_l {A} (l l' : list A) : NoDup (l ++ l') -> NoDup l.
Proof. intros H. apply (NoDup_app_r l' l). apply NoDup_app_swap. exact H. Qed.
Lemma solver_locs_in w i s : nth_error (w_solvers w) i = Some s -> In (so_dt s) (flat_map solver_locs (w_solvers w)) /\ In (so_test s) (flat_map solver_locs (w_solvers w)).
Proof. intros H. apply nth_error_In in H. split; apply in_flat_map; exists s; split; simpl; auto. Qed.
Lemma solvers_apart (ss : list sobj) i j s s' : NoDup (flat_map solver_locs ss) -> i <> j -> nth_error ss i = Some s -> nth_error ss j = Some s' ->
  so_dt s <> so_dt s' /\ so_dt s <> so_test s' /\ so_test s <> so_dt s' /\ so_test s <> so_test s'.
Proof.
  revert i j; induction ss as [|a ss IH]; intros i j HN Hij Hi Hj; [destruct i; discriminate|].
  cbn [flat_map] in HN.
  assert (K : forall k s0, nth_error ss k = Some s0 -> In (so_dt s0) (flat_map solver_locs ss) /\ In (so_test s0) (flat_map solver_locs ss)).
  { intros k s0 H. apply nth_error_In in H. split; apply in_flat_map; exists s0; split; simpl; auto. }
  destruct i as [|i], j as [|j]; simpl in Hi, Hj; [congruence| | |].
  - injection Hi as ->. destruct (K _ _ Hj) as [K1 K2].
    assert (D : forall x, In x (solver_locs s) -> x <> so_dt s' /\ x <> so_test s').
    { intros x Hx. split; intros ->; apply (NoDup_app_sep _ _ _ HN Hx); assumption. }
    destruct (D (so_dt s)) as [D1 D2]; [simpl; auto|]. destruct (D (so_test s)) as [D3 D4]; [simpl; auto|]. auto.
  - injection Hj as ->. destruct (K _ _ Hi) as [K1 K2].
    assert (D : forall x, In x (solver_locs s') -> so_dt s <> x /\ so_test s <> x).
    { intros x Hx. split; intros <-; apply (NoDup_app_sep _ _ _ HN Hx); assumption. }
    destruct (D (so_dt s')) as [D1 D2]; [simpl; auto|]. destruct (D (so_test s')) as [D3 D4]; [simpl; auto|]. auto.
  - apply (IH i j (NoDup_app_r _ _ HN)); [congruence|exact Hi|exact Hj].
Qed.
Lemma own_two (ss : list sobj) i s : NoDup (flat_map solver_locs ss) -> nth_error ss i = Some s -> so_dt s <> so_test s.
Proof.
  revert i; induction ss as [|a ss IH]; intros i HN Hi; [destruct i; discriminate|]. cbn [flat_map] in HN. destruct i as [|i]; simpl in Hi.
  - injection Hi as ->. apply NoDup_app_l in HN. simpl in HN. inversion HN as [|? ? H ?]; subst. intros E. apply H. left. symmetry. exact E.
  - apply (IH i); [apply (NoDup_app_r _ _ HN)|exact Hi].
Qed.

(** what a call writes: only the solver's own two cells *)
Lemma call_frame s a h l : l <> so_dt s -> l <> so_test s -> fetch (fst (call s a h)) l = fetch h l.
Proof.
  intros H1 H2. unfold call. destruct (info_error _ _); [cbn [fst]; apply fetch_store_other; congruence|].
  destruct (ca_btest a); [|cbn [fst]; apply fetch_store_other; congruence].
  destruct (backgrounds_differ _ _); cbn [fst]; rewrite ?fetch_store_other by congruence; reflexivity.
Qed.

(** C197a: whatever solvers are built from a data term and however they are called, the caller's instance keeps its values,
    until the caller changes it *)
Definition changes_variable (u : nat) (e : event) : Prop := match e with E_assign v _ _ _ => u = v | _ => False end.
Lemma step_user w e u l : nth_error (w_user w) u = Some l -> nth_error (w_user (fst (step w e))) u = Some l.
Proof.
  intros H. destruct e as [k bg shape|v d b sigma|c a atest regs tol relax restart|i a]; cbn [step].
  - cbn [fst w_user]. rewrite nth_error_app1; [exact H|]. apply nth_error_Some. congruence.
  - destruct (nth_error (w_user w) v); exact H.
  - destruct (init_terms _ _ _ _) as [e|[h [l' lt]]]; exact H.
  - destruct (nth_error (w_solvers w) i) as [s|]; [|exact H]. destruct (call s a (w_heap w)); exact H.
Qed.
Theorem C197_caller_untouched : forall w u o es, reachable w -> variable w u o -> Forall (fun e => ~ changes_variable u e) es ->
  variable (run w es) u o.
Proof.
  intros w u o es Hw Hv Hes. revert w Hw Hv. induction Hes as [|e es He Hes IH]; intros w Hw Hv; [exact Hv|].
  apply (IH (fst (step w e))); [apply (reachable_run w [e] Hw)|].
  destruct Hv as (l & Hu & Hl & Ho). exists l. split; [apply step_user; exact Hu|].
  destruct (reachable_disjoint w Hw) as [HN HB].
  destruct e as [k bg shape|v d b sigma|c a atest regs tol relax restart|i a]; cbn [step].
  - cbn [fst w_heap]. rewrite app_length. simpl. split; [lia|]. rewrite fetch_old by exact Hl. exact Ho.
  - destruct (nth_error (w_user w) v) as [lv|] eqn:Ev; [|split; assumption]. cbn [fst w_heap]. rewrite store_length. split; [exact Hl|].
    rewrite fetch_store_other; [exact Ho|]. intros ->. apply He. cbn. apply NoDup_app_l in HN.
    apply (proj1 (NoDup_nth_error (w_user w)) HN); [apply nth_error_Some; congruence|]. congruence.
  - destruct (init_terms _ _ _ _) as [e|[h [l' lt]]] eqn:E; [split; assumption|].
    destruct (init_terms_new _ _ _ _ _ _ _ E) as (os & -> & _). cbn [fst w_heap]. rewrite app_length. split; [lia|]. rewrite fetch_old by exact Hl. exact Ho.
  - destruct (nth_error (w_solvers w) i) as [s|] eqn:Es; [|split; assumption].
    destruct (call s a (w_heap w)) as [h r] eqn:E. cbn [fst w_heap]. replace h with (fst (call s a (w_heap w))) by (rewrite E; reflexivity).
    rewrite call_length. split; [exact Hl|]. destruct (solver_locs_in _ _ _ Es) as [K1 K2].
    rewrite call_frame; [exact Ho| |]; intros ->; apply (NoDup_app_sep _ _ _ HN (nth_error_In _ _ Hu)); assumption.
Qed.

(** C197b: events that do not concern solver i (other solvers, the caller's own terms, even the term it was built from) do not
    change the two terms it holds *)
Definition calls (i : nat) (e : event) : Prop := match e with E_call j _ => i = j | _ => False end.
Lemma step_solver w e i s : nth_error (w_solvers w) i = Some s -> nth_error (w_solvers (fst (step w e))) i = Some s.
Proof.
  intros H. destruct e as [k bg shape|v d b sigma|c a atest regs tol relax restart|j a]; cbn [step].
  - exact H.
  - destruct (nth_error (w_user w) v); exact H.
  - destruct (init_terms _ _ _ _) as [e|[h [l' lt]]]; [exact H|]. cbn [fst w_solvers]. rewrite nth_error_app1; [exact H|]. apply nth_error_Some. congruence.
  - destruct (nth_error (w_solvers w) j) as [s'|]; [|exact H]. destruct (call s' a (w_heap w)); exact H.
Qed.
Lemma step_frame w e i s : reachable w -> nth_error (w_solvers w) i = Some s -> ~ calls i e ->
  its_term (fst (step w e)) s = its_term w s /\ its_test_term (fst (step w e)) s = its_test_term w s.
Proof.
  intros Hw Hs He. destruct (reachable_disjoint w Hw) as [HN HB]. rewrite Forall_forall in HB.
  destruct (solver_locs_in _ _ _ Hs) as [K1 K2].
  assert (B1 : (so_dt s < length (w_heap w))%nat) by (apply HB; apply in_app_iff; right; exact K1).
  assert (B2 : (so_test s < length (w_heap w))%nat) by (apply HB; apply in_app_iff; right; exact K2).
  unfold its_term, its_test_term. destruct e as [k bg shape|v d b sigma|c a atest regs tol relax restart|j a]; cbn [step].
  - cbn [fst w_heap]. rewrite !fetch_old by assumption. auto.
  - destruct (nth_error (w_user w) v) as [lv|] eqn:Ev; [|auto]. cbn [fst w_heap]. apply nth_error_In in Ev.
    rewrite !fetch_store_other; [auto| |]; intros ->; apply (NoDup_app_sep _ _ _ HN Ev); assumption.
  - destruct (init_terms _ _ _ _) as [e|[h [l' lt]]] eqn:E; [auto|].
    destruct (init_terms_new _ _ _ _ _ _ _ E) as (os & -> & _). cbn [fst w_heap]. rewrite !fetch_old by assumption. auto.
  - destruct (nth_error (w_solvers w) j) as [s'|] eqn:Es; [|auto].
    destruct (call s' a (w_heap w)) as [h r] eqn:E. cbn [fst w_heap]. replace h with (fst (call s' a (w_heap w))) by (rewrite E; reflexivity).
    destruct (solvers_apart (w_solvers w) i j s s') as (D1 & D2 & D3 & D4); auto; [apply (NoDup_app_r _ _ HN)|].
    rewrite !call_frame by assumption. auto.
Qed.
Theorem C197_solver_isolated : forall w i s es, reachable w -> nth_error (w_solvers w) i = Some s -> Forall (fun e => ~ calls i e) es ->
  nth_error (w_solvers (run w es)) i = Some s /\ its_term (run w es) s = its_term w s /\ its_test_term (run w es) s = its_test_term w s /\
  so_dt s <> so_test s.
Proof.
  intros w i s es Hw Hs Hes. revert w Hw Hs. induction Hes as [|e es He Hes IH]; intros w Hw Hs.
  - repeat split; auto. apply (own_two (w_solvers w) i); [|exact Hs]. apply (NoDup_app_r (w_user w)). apply (reachable_disjoint w Hw).
  - destruct (IH (fst (step w e))) as (A & B & C & D); [apply (reachable_run w [e] Hw)|apply step_solver; exact Hs|].
    destruct (step_frame w e i s Hw Hs He) as [F1 F2]. change (run w (e :: es)) with (run (fst (step w e)) es). rewrite B, C, F1, F2. auto.
Qed.

(** * C198: calling a solver again *)
(** the attributes an instance keeps whatever data it is given *)
Definition alike (t t' : dterm) : Prop :=
  dt_kind t = dt_kind t' /\
  (match dt_kind t with K_l2b _ => True | _ => dt_sigma_sqrt_error t = dt_sigma_sqrt_error t' end) /\
  (match dt_kind t with K_Huber _ _ => True | _ => dt_one_sigma_error t = dt_one_sigma_error t' end).
Lemma alike_refl t : alike t t.
Proof. repeat split; destruct (dt_kind t); auto. Qed.
Lemma alike_trans t t' t'' : alike t t' -> alike t' t'' -> alike t t''.
Proof. intros (A & B & C) (A' & B' & C'). unfold alike. rewrite <- A in *. split; [congruence|]. destruct (dt_kind t); split; auto; congruence. Qed.
Lemma alike_assign t d s : alike t (assign_data t d s).
Proof. unfold alike, assign_data; cbn. destruct (dt_kind t); auto. Qed.
Lemma alike_cast d t : alike t (cast_background d t).
Proof. unfold alike, cast_background; cbn. destruct (dt_kind t); auto. Qed.
Lemma alike_sync t te : alike te (sync_background t te).
Proof. unfold alike, sync_background; cbn. destruct (dt_kind te); auto. Qed.
Lemma alike_assign_eq t t' d s : alike t t' -> dt_background t = dt_background t' -> assign_data t d s = assign_data t' d s.
Proof.
  intros (A & B & C) H. unfold assign_data. rewrite <- A, <- H. destruct (dt_kind t); f_equal; auto.
Qed.
Lemma alike_assign_cast d o b s : alike (ob_t o) (ob_t (assign_cast d o b s)).
Proof. unfold assign_cast; cbn [ob_t]. eapply alike_trans; [apply (alike_cast d)|apply alike_assign]. Qed.
Lemma cast_floating t : cast_background Floating t = t.
Proof. destruct t as [k bg da s sd s1 se oe]. unfold cast_background; cbn. destruct bg; reflexivity. Qed.

(** whole numbers survive the conversion *)
Definition whole (o : dobj) : Prop := forall g j, dt_background (ob_t o) = Some g -> exists z : Z, g j = IZR z.
Lemma truncate_whole z : truncate (IZR z) = IZR z.
Proof.
  assert (I : forall z, Int_part (IZR z) = z).
  { intros k. unfold Int_part. rewrite <- (tech_up (IZR k) (k + 1)); [lia| |]; rewrite plus_IZR; lra. }
  unfold truncate. destruct (Rle_dec 0 (IZR z)); [rewrite I; reflexivity|]. rewrite <- (opp_IZR z), I, (opp_IZR z). ring.
Qed.
Lemma astype_id d o g j : d = Floating \/ whole o -> dt_background (ob_t o) = Some g -> astype d (g j) = g j.
Proof. intros [-> | H] E; [reflexivity|]. destruct d; [reflexivity|]. destruct (H g j E) as [z Hz]. rewrite Hz. apply truncate_whole. Qed.
Lemma cast_keeps d o : d = Floating \/ whole o -> dt_background (cast_background d (ob_t o)) = dt_background (ob_t o).
Proof.
  intros H. unfold cast_background; cbn. destruct (dt_background (ob_t o)) as [g|] eqn:E; [|reflexivity]. cbn. f_equal.
  apply functional_extensionality. intros j. apply (astype_id d o g j H E).
Qed.

(** a background with more than one number *)
Definition array_background (o : dobj) : bool := (is_some (dt_background (ob_t o)) && negb (Nat.eqb (size (ob_shape o)) 1))%bool.
Lemma differ_error t te : backgrounds_differ t te = inl ValueError /\ (array_background t || array_background te)%bool = true \/
  (exists b, backgrounds_differ t te = inr b) /\ (array_background t || array_background te)%bool = false.
Proof.
  unfold backgrounds_differ, array_background. destruct (dt_background (ob_t t)), (dt_background (ob_t te)); cbn [is_some andb];
    destruct (Nat.eqb (size (ob_shape t)) 1), (Nat.eqb (size (ob_shape te)) 1); cbn; eauto 6.
Qed.

Lemma assigned_test_only s a t te te' sg : alike te te' -> assigned_test (the_problem s a t te) sg = assigned_test (the_problem s a t te') sg.
Proof.
  intros H. unfold assigned_test. cbn [p_dterm p_dterm_test the_problem p_b]. apply alike_assign_eq; [|reflexivity].
  destruct H as (A & B & C). unfold alike, sync_background; cbn. split; [exact A|]. split; assumption.
Qed.
Lemma numerics_test_only s a t te te' : alike te te' -> run_numerics s a t te = run_numerics s a t te'.
Proof.
  intros H. pose proof (assigned_test_only s a t te te') as K. unfold run_numerics. destruct (so_class s); try reflexivity.
  - unfold mlem_call. rewrite (K vones H). reflexivity.
  - unfold sirt_call. cbn [p_bmask p_btest the_problem]. destruct (initialize_b_masks _ _) as [bm bt]. cbv zeta. rewrite (K _ H). reflexivity.
  - unfold pdhg_call. cbn [p_bmask p_btest the_problem]. destruct (initialize_b_masks _ _) as [bm bt]. cbv zeta. rewrite (K _ H). reflexivity.
  - unfold fista_call. cbn [p_bmask p_btest the_problem]. destruct (initialize_b_masks _ _) as [bm bt]. cbv zeta. rewrite (K _ H). reflexivity.
Qed.

(** what the result of a call depends on *)
Definition same_for_calls (t t' te te' : dobj) : Prop :=
  alike (ob_t t) (ob_t t') /\ dt_background (ob_t t) = dt_background (ob_t t') /\ ob_shape t = ob_shape t' /\
  alike (ob_t te) (ob_t te') /\ array_background te = array_background te'.
Lemma same_refl t te : same_for_calls t t te te.
Proof. split; [apply alike_refl|]. split; [reflexivity|]. split; [reflexivity|]. split; [apply alike_refl|reflexivity]. Qed.
Lemma same_trans t t' t'' te te' te'' : same_for_calls t t' te te' -> same_for_calls t' t'' te' te'' -> same_for_calls t t'' te te''.
Proof.
  intros (A & B & C & D & E) (A' & B' & C' & D' & E').
  split; [exact (alike_trans _ _ _ A A')|]. split; [congruence|]. split; [congruence|]. split; [exact (alike_trans _ _ _ D D')|congruence].
Qed.
Lemma assign_cast_eq d t t' b s : alike (ob_t t) (ob_t t') -> dt_background (ob_t t) = dt_background (ob_t t') -> ob_shape t = ob_shape t' ->
  assign_cast d t b s = assign_cast d t' b s.
Proof.
  intros A B C. unfold assign_cast. f_equal; [|exact C]. apply alike_assign_eq.
  - destruct A as (A1 & A2 & A3). unfold alike, cast_background; cbn. split; [exact A1|]. split; assumption.
  - unfold cast_background; cbn. rewrite B. reflexivity.
Qed.
Lemma call_same s a h h' : so_dt s <> so_test s -> same_for_calls (fetch h (so_dt s)) (fetch h' (so_dt s)) (fetch h (so_test s)) (fetch h' (so_test s)) ->
  snd (call s a h) = snd (call s a h').
Proof.
  intros Hne (A & B & C & D & E). unfold call. rewrite (assign_cast_eq _ _ _ (ca_b a) (the_sigma s a) A B C).
  set (t := assign_cast (ca_dtype a) (fetch h' (so_dt s)) (ca_b a) (the_sigma s a)).
  destruct (info_error (so_class s) t) as [e|]; [reflexivity|]. destruct (ca_btest a) as [m|]; [|reflexivity].
  rewrite !fetch_store_other by exact Hne.
  destruct (differ_error t (fetch h (so_test s))) as [[D1 D2]|[[x D1] D2]], (differ_error t (fetch h' (so_test s))) as [[D1' D2']|[[x' D1'] D2']];
    rewrite E in D2; try congruence; rewrite D1, D1'; [reflexivity|].
  cbn [snd]. f_equal. apply numerics_test_only.
  apply (alike_trans _ (ob_t (fetch h (so_test s)))); [|apply (alike_trans _ (ob_t (fetch h' (so_test s))) _ D)].
  - assert (S : forall u v, alike u v -> alike v u). { intros u v (P & Q & W). unfold alike. rewrite <- P. split; [reflexivity|]. destruct (dt_kind u); split; auto. }
    apply S. eapply alike_trans; [|apply alike_assign_cast]. destruct x; [apply alike_sync|apply alike_refl].
  - eapply alike_trans; [|apply alike_assign_cast]. destruct x'; [apply alike_sync|apply alike_refl].
Qed.
Lemma call_keeps s a h : so_dt s <> so_test s -> (so_dt s < length h)%nat -> (so_test s < length h)%nat ->
  ca_dtype a = Floating \/ whole (fetch h (so_dt s)) ->
  same_for_calls (fetch h (so_dt s)) (fetch (fst (call s a h)) (so_dt s)) (fetch h (so_test s)) (fetch (fst (call s a h)) (so_test s)).
Proof.
  intros Hne L1 L2 Hd. unfold call. set (t := assign_cast _ _ _ _).
  assert (T : alike (ob_t (fetch h (so_dt s))) (ob_t t) /\ dt_background (ob_t (fetch h (so_dt s))) = dt_background (ob_t t) /\ ob_shape (fetch h (so_dt s)) = ob_shape t).
  { split; [apply alike_assign_cast|]. split; [|reflexivity]. unfold t, assign_cast; cbn [ob_t]. unfold assign_data; cbn [dt_background]. symmetry. apply cast_keeps. exact Hd. }
  assert (K : same_for_calls (fetch h (so_dt s)) (fetch (store (so_dt s) t h) (so_dt s)) (fetch h (so_test s)) (fetch (store (so_dt s) t h) (so_test s))).
  { rewrite fetch_store_same by exact L1. rewrite fetch_store_other by exact Hne. destruct T as (T1 & T2 & T3).
    split; [exact T1|]. split; [exact T2|]. split; [exact T3|]. split; [apply alike_refl|reflexivity]. }
  destruct (info_error _ _); [exact K|]. destruct (ca_btest a); [|exact K].
  destruct (differ_error t (fetch (store (so_dt s) t h) (so_test s))) as [[D1 D2]|[[x D1] D2]]; rewrite D1; [exact K|].
  rewrite fetch_store_other in D2 by exact Hne. cbn [fst].
  rewrite (fetch_store_other (so_test s) (so_dt s)) by congruence. rewrite fetch_store_same by exact L1.
  rewrite fetch_store_same by (rewrite store_length; exact L2). rewrite fetch_store_other by exact Hne.
  apply Bool.orb_false_elim in D2. destruct D2 as [D2 D3]. destruct T as (T1 & T2 & T3).
  split; [exact T1|]. split; [exact T2|]. split; [exact T3|]. split.
  - eapply alike_trans; [|apply alike_assign_cast]. destruct x; [apply alike_sync|apply alike_refl].
  - rewrite D3. destruct x.
    + unfold array_background in *. unfold assign_cast, sync. cbn [ob_t ob_shape assign_data dt_background cast_background sync_background].
      destruct (dt_background (ob_t t)); cbn in *; symmetry; exact D2.
    + unfold array_background in *. unfold assign_cast. cbn [ob_t ob_shape assign_data dt_background cast_background].
      destruct (dt_background (ob_t (fetch h (so_test s)))); cbn in *; symmetry; exact D3.
Qed.

(** a use of solver i that cannot spoil its background: floating-point data, or a background of whole numbers *)
Definition gentle (i : nat) (w : world) (e : event) : Prop :=
  match e with
  | E_call j a => i = j -> forall s, nth_error (w_solvers w) i = Some s -> ca_dtype a = Floating \/ whole (its_term w s)
  | _ => True
  end.
Fixpoint gentle_history (i : nat) (w : world) (es : list event) : Prop :=
  match es with [] => True | e :: r => gentle i w e /\ gentle_history i (fst (step w e)) r end.
Lemma step_same w e i s : reachable w -> nth_error (w_solvers w) i = Some s -> gentle i w e ->
  same_for_calls (its_term w s) (its_term (fst (step w e)) s) (its_test_term w s) (its_test_term (fst (step w e)) s).
Proof.
  intros Hw Hs He. destruct (reachable_disjoint w Hw) as [HN HB]. rewrite Forall_forall in HB. destruct (solver_locs_in _ _ _ Hs) as [K1 K2].
  assert (B1 : (so_dt s < length (w_heap w))%nat) by (apply HB; apply in_app_iff; right; exact K1).
  assert (B2 : (so_test s < length (w_heap w))%nat) by (apply HB; apply in_app_iff; right; exact K2).
  assert (Hc : calls i e \/ ~ calls i e) by (destruct e; cbn; try (right; tauto); destruct (Nat.eq_dec i i0); auto).
  destruct Hc as [Hc|Hc].
  - destruct e as [| | |j a]; try contradiction. cbn in Hc. subst j. specialize (He eq_refl s Hs). cbn [step]. rewrite Hs.
    destruct (call s a (w_heap w)) as [h r] eqn:E. cbn [fst]. unfold its_term, its_test_term. cbn [w_heap].
    replace h with (fst (call s a (w_heap w))) by (rewrite E; reflexivity). apply call_keeps; auto.
    apply (own_two (w_solvers w) i); [|exact Hs]. apply (NoDup_app_r (w_user w)). exact HN.
  - destruct (step_frame w e i s Hw Hs Hc) as [-> ->]. apply same_refl.
Qed.
Lemma history_same es : forall w i s, reachable w -> nth_error (w_solvers w) i = Some s -> gentle_history i w es ->
  same_for_calls (its_term w s) (its_term (run w es) s) (its_test_term w s) (its_test_term (run w es) s) /\ nth_error (w_solvers (run w es)) i = Some s.
Proof.
  induction es as [|e es IH]; intros w i s Hw Hs Hes; [split; [apply same_refl|exact Hs]|].
  destruct Hes as [He Hes]. destruct (IH (fst (step w e)) i s) as [A B]; [apply (reachable_run w [e] Hw)|apply step_solver; exact Hs|exact Hes|].
  split; [|exact B]. eapply same_trans; [apply (step_same w e i s Hw Hs He)|exact A].
Qed.

(** C198a: the outcome of a call - result or error - does not depend on what happened before: earlier calls of the same solver on
    other data, of any size, with or without masks, successful or not, and anything done with other objects *)
Theorem C198_history_independent : forall w i s es a, reachable w -> nth_error (w_solvers w) i = Some s -> gentle_history i w es ->
  snd (step (run w es) (E_call i a)) = snd (step w (E_call i a)).
Proof.
  intros w i s es a Hw Hs Hes. destruct (history_same es w i s Hw Hs Hes) as [A B]. cbn [step]. rewrite Hs, B.
  pose proof (reachable_disjoint w Hw) as [HN _].
  assert (E : snd (call s a (w_heap w)) = snd (call s a (w_heap (run w es)))).
  { apply call_same; [apply (own_two (w_solvers w) i); [apply (NoDup_app_r (w_user w)); exact HN|exact Hs]|exact A]. }
  destruct (call s a (w_heap w)) as [h r], (call s a (w_heap (run w es))) as [h' r']. cbn in *. rewrite E. reflexivity.
Qed.
(** the special case: all data in floating point *)
Definition floating_calls (i : nat) (e : event) : Prop := match e with E_call j a => i = j -> ca_dtype a = Floating | _ => True end.
Theorem C198_floating_point : forall w i s es a, reachable w -> nth_error (w_solvers w) i = Some s -> Forall (floating_calls i) es ->
  snd (step (run w es) (E_call i a)) = snd (step w (E_call i a)).
Proof.
  intros w i s es a Hw Hs Hes. apply (C198_history_independent w i s es a Hw Hs). clear Hs Hw. revert w. induction Hes as [|e es He Hes IH]; intros w; [exact I|].
  split; [|apply IH]. destruct e; cbn; auto.
Qed.

(** C198b: with integer data the background is truncated to whole numbers, and stays so *)
Definition with_dtype (d : dtype) (a : cargs) : cargs :=
  mkCA (ca_n a) (ca_m a) (ca_op a) (ca_b a) d (ca_x0 a) (ca_lower a) (ca_upper a) (ca_xmask a) (ca_bmask a) (ca_btest a) (ca_lipschitz a) (ca_iterations a).
Definition truncated (o : dobj) : dobj := mkDO (cast_background Integer (ob_t o)) (ob_shape o).
Theorem C198_integer_data : forall s a h, so_dt s <> so_test s -> (so_dt s < length h)%nat ->
  snd (call s (with_dtype Integer a) h) = snd (call s (with_dtype Floating a) (store (so_dt s) (truncated (fetch h (so_dt s))) h)).
Proof.
  intros s a h Hne Hl. unfold call. cbn [ca_dtype with_dtype ca_b ca_btest]. rewrite fetch_store_same by exact Hl.
  change (the_sigma s (with_dtype Integer a)) with (the_sigma s a). change (the_sigma s (with_dtype Floating a)) with (the_sigma s a).
  assert (E : assign_cast Integer (fetch h (so_dt s)) (ca_b a) (the_sigma s a) = assign_cast Floating (truncated (fetch h (so_dt s))) (ca_b a) (the_sigma s a)).
  { unfold assign_cast, truncated. cbn [ob_t ob_shape]. rewrite cast_floating. reflexivity. }
  rewrite <- E. set (t := assign_cast Integer (fetch h (so_dt s)) (ca_b a) (the_sigma s a)).
  assert (N : forall te te', alike te te' -> run_numerics s (with_dtype Integer a) (ob_t t) te = run_numerics s (with_dtype Floating a) (ob_t t) te').
  { intros te te' H. transitivity (run_numerics s (with_dtype Integer a) (ob_t t) te'); [apply numerics_test_only; exact H|]. reflexivity. }
  destruct (info_error (so_class s) t); [reflexivity|]. destruct (ca_btest a); [|cbn [snd]; f_equal; apply N; apply alike_refl].
  rewrite !fetch_store_other by exact Hne. destruct (backgrounds_differ _ _) as [e|x]; [reflexivity|]. cbn [snd].
  set (te := if x then _ else _). pose proof (alike_assign_cast Integer te (ca_b a) (the_sigma s a)) as H1. pose proof (alike_assign_cast Floating te (ca_b a) (the_sigma s a)) as H2.
  assert (S : forall u v, alike u v -> alike v u). { intros u' v' (P & Q & W). unfold alike. rewrite <- P. split; [reflexivity|]. destruct (dt_kind u'); split; auto. }
  apply (f_equal inr (N _ _ (alike_trans _ _ _ (S _ _ H1) H2))).
Qed.

(** one pixel, one detector element, the identity operator *)
Definition unit_op : linop := mkOp (fun x => x) (fun x => x) (fun x => x) (fun x => x).
Definition unit_args (d : dtype) (b : R) : cargs := mkCA 1 1 unit_op (fun _ => b) d None None None None None None None 1.
Definition half_world : world := run start [E_term K_l2 (Some (fun _ => 1 / 2)) []; E_solver C_SIRT (U_var 0) None [] None 1 None].
Definition result_is (o : outcome) (v : R) : Prop := match o with O_result x _ => x 0%nat = v | _ => False end.
Lemma truncate_half : truncate (1 / 2) = 0.
Proof.
  unfold truncate. destruct (Rle_dec 0 (1 / 2)); [|lra]. replace (Int_part (1 / 2)) with 0%Z; [reflexivity|].
  unfold Int_part. rewrite <- (tech_up (1 / 2) 1); [reflexivity|lra|lra].
Qed.
Lemma unit_sigma : diag_sigma 1 unit_op 1 None 0%nat = 1.
Proof.
  unfold diag_sigma, guard_small, raw_sigma, rmax, ones_masked, mul_mask, vones. cbn. rewrite ?Rabs_R1. destruct (Rlt_dec _ _) as [H|_]; lra.
Qed.
Lemma unit_tau : diag_tau 1 unit_op [] 1 None 0%nat = 1.
Proof.
  unfold diag_tau, guard_small, raw_tau, rmax, ones_masked, mul_mask, vones. cbn. rewrite ?Rabs_R1. destruct (Rlt_dec _ _) as [H|_]; lra.
Qed.
Lemma unit_sirt w s d b g : nth_error (w_solvers w) 0 = Some s -> so_class s = C_SIRT -> so_regs s = [] -> so_tol s = None -> so_relax s = 1 ->
  dt_kind (ob_t (its_term w s)) = K_l2 -> dt_background (ob_t (its_term w s)) = Some g ->
  result_is (snd (step w (E_call 0 (unit_args d b)))) (b - astype d (g 0%nat)).
Proof.
  destruct s as [c l lt rs tol rx rst]. cbn [so_class so_regs so_tol so_relax]. intros Hs -> -> -> -> Hk Hg.
  unfold its_term in Hk, Hg. cbn [so_dt] in Hk, Hg. cbn [step]. rewrite Hs.
  pose proof unit_tau as E1. pose proof unit_sigma as E2. unfold call. cbn [so_dt]. remember (fetch (w_heap w) l) as t0 eqn:Et. clear Et Hs.
  cbn -[diag_tau diag_sigma astype unit_op compute_residual Rmult Rplus].
  unfold vadd, vmul at 1. rewrite E1. cbn [opAt unit_op]. unfold vmul. rewrite E2. unfold compute_residual. cbn [dt_kind assigned p_dterm the_problem assign_data ob_t assign_cast cast_background]. rewrite Hk.
  cbn -[astype]. unfold add_background. cbn -[astype]. rewrite Hg. cbn -[astype]. unfold vzeros. lra.
Qed.

Theorem C198_integer_data_refuted :
  (* data 1, background 1/2: one SIRT step gives 1/2 - but 1 when the data are integers, *)
  result_is (snd (step half_world (E_call 0 (unit_args Floating 1)))) (1 / 2) /\
  result_is (snd (step half_world (E_call 0 (unit_args Integer 1)))) 1 /\
  (* and from then on also for floating-point data *)
  result_is (snd (step (run half_world [E_call 0 (unit_args Integer 1)]) (E_call 0 (unit_args Floating 1)))) 1.
Proof.
  set (s0 := mkSO C_SIRT 1 2 [] None 1 None).
  assert (Hs : nth_error (w_solvers half_world) 0 = Some s0) by reflexivity.
  assert (Hk : dt_kind (ob_t (its_term half_world s0)) = K_l2) by reflexivity.
  assert (Hg : dt_background (ob_t (its_term half_world s0)) = Some (fun _ => 1 / 2)) by reflexivity.
  assert (E : astype Integer (1 / 2) = 0) by apply truncate_half.
  split; [|split].
  - pose proof (unit_sirt half_world s0 Floating 1 _ Hs eq_refl eq_refl eq_refl eq_refl Hk Hg) as K. cbn beta in K.
    replace (1 - astype Floating (1 / 2)) with (1 / 2) in K by (cbn; lra). exact K.
  - pose proof (unit_sirt half_world s0 Integer 1 _ Hs eq_refl eq_refl eq_refl eq_refl Hk Hg) as K. cbn beta in K.
    replace (1 - astype Integer (1 / 2)) with 1 in K by lra. exact K.
  - set (w := run half_world _).
    assert (Hs' : nth_error (w_solvers w) 0 = Some s0) by reflexivity.
    assert (Hk' : dt_kind (ob_t (its_term w s0)) = K_l2) by reflexivity.
    assert (Hg' : dt_background (ob_t (its_term w s0)) = Some (fun _ => astype Integer (1 / 2))) by reflexivity.
    pose proof (unit_sirt w s0 Floating 1 _ Hs' eq_refl eq_refl eq_refl eq_refl Hk' Hg') as K. cbn beta in K. rewrite E in K.
    replace (1 - astype Floating 0) with 1 in K by (cbn; lra). exact K.
Qed.

(** * C199: per-pixel backgrounds *)
Definition gradient_based (c : sclass) : Prop := c = C_SIRT \/ c = C_PDHG \/ c = C_FISTA.
Definition answers (o : outcome) : Prop := exists x f, o = O_result x f.
(** an array of shape [sh] given as background *)
Definition has_background (o : dobj) (sh : list nat) : Prop := (exists g, dt_background (ob_t o) = Some g) /\ ob_shape o = sh.
Definition per_pixel (o : dobj) : Prop := exists sh, has_background o sh /\ size sh <> 1%nat.
Lemma per_pixel_array o : per_pixel o <-> array_background o = true.
Proof.
  unfold per_pixel, has_background, array_background. split.
  - intros (sh & ((g & Hg) & <-) & Hs). rewrite Hg. cbn. apply Bool.negb_true_iff. apply Nat.eqb_neq. exact Hs.
  - destruct (dt_background (ob_t o)) as [g|] eqn:E; [|discriminate]. cbn. intros H. apply Bool.negb_true_iff in H. apply Nat.eqb_neq in H. exists (ob_shape o). eauto.
Qed.
Lemma array_assign d t b s : array_background (assign_cast d t b s) = array_background t.
Proof. unfold array_background, assign_cast. cbn [ob_t ob_shape assign_data dt_background cast_background]. destruct (dt_background (ob_t t)); reflexivity. Qed.
Lemma call_cases w i s a : reachable w -> nth_error (w_solvers w) i = Some s ->
  let t := assign_cast (ca_dtype a) (its_term w s) (ca_b a) (the_sigma s a) in
  match info_error (so_class s) t with
  | Some e => snd (step w (E_call i a)) = O_error e
  | None =>
      (ca_btest a = None -> answers (snd (step w (E_call i a)))) /\
      (ca_btest a <> None -> array_background (its_term w s) = true \/ array_background (its_test_term w s) = true -> snd (step w (E_call i a)) = O_error ValueError) /\
      (array_background (its_term w s) = false -> array_background (its_test_term w s) = false -> answers (snd (step w (E_call i a))))
  end.
Proof.
  intros Hw Hs. cbv zeta. pose proof (reachable_disjoint w Hw) as [HN _].
  assert (Hne : so_dt s <> so_test s) by (apply (own_two (w_solvers w) i); [apply (NoDup_app_r (w_user w)); exact HN|exact Hs]).
  cbn [step]. rewrite Hs. unfold call. fold (its_term w s). set (t := assign_cast _ _ _ _).
  destruct (info_error (so_class s) t); [reflexivity|]. rewrite fetch_store_other by exact Hne. fold (its_test_term w s).
  assert (T : array_background t = array_background (its_term w s)) by apply array_assign.
  split; [|split].
  - intros ->. destruct (run_numerics _ _ _ _) as [x f]. exists x, f. reflexivity.
  - intros Hb Ha. destruct (ca_btest a); [|contradiction]. destruct (differ_error t (its_test_term w s)) as [[D1 D2]|[_ D2]].
    + rewrite D1. reflexivity.
    + rewrite T in D2. apply Bool.orb_false_elim in D2. destruct D2, Ha; congruence.
  - intros H1 H2. destruct (ca_btest a) as [m|]; [|destruct (run_numerics _ _ _ _) as [x f]; exists x, f; reflexivity].
    destruct (differ_error t (its_test_term w s)) as [[_ D2]|[[x D1] _]]; [rewrite T, H1, H2 in D2; discriminate|].
    rewrite D1. destruct (run_numerics _ _ _ _) as [y f]; exists y, f; reflexivity.
Qed.

(** SIRT, PDHG and FISTA accept any background without a test mask, but cannot be cross-validated with a per-pixel one *)
Theorem C199_gradient_solvers : forall w i s a, reachable w -> nth_error (w_solvers w) i = Some s -> gradient_based (so_class s) ->
  (ca_btest a = None -> answers (snd (step w (E_call i a)))) /\
  (~ per_pixel (its_term w s) -> ~ per_pixel (its_test_term w s) -> answers (snd (step w (E_call i a)))) /\
  (ca_btest a <> None -> per_pixel (its_term w s) \/ per_pixel (its_test_term w s) -> snd (step w (E_call i a)) = O_error ValueError).
Proof.
  intros w i s a Hw Hs Hc. pose proof (call_cases w i s a Hw Hs) as K. cbv zeta in K. revert K. set (t := assign_cast _ _ _ _).
  replace (info_error (so_class s) t) with (@None py_err) by (unfold info_error; destruct Hc as [-> | [-> | ->]]; reflexivity).
  intros (K1 & K2 & K3). split; [exact K1|]. split.
  - intros H1 H2. apply K3; apply Bool.not_true_is_false; intros E; apply per_pixel_array in E; contradiction.
  - intros Hb [H|H]; apply K2; auto; apply per_pixel_array in H; auto.
Qed.
(** MLEM cannot use a background array at all (not even with one element), test mask or not *)
Theorem C199_mlem : forall w i s a, reachable w -> nth_error (w_solvers w) i = Some s -> so_class s = C_MLEM ->
  (forall n sh, has_background (its_term w s) (n :: sh) -> snd (step w (E_call i a)) = O_error TypeError) /\
  (dt_background (ob_t (its_term w s)) = None \/ has_background (its_term w s) [] ->
     (ca_btest a = None \/ ~ per_pixel (its_test_term w s) -> answers (snd (step w (E_call i a)))) /\
     (ca_btest a <> None -> per_pixel (its_test_term w s) -> snd (step w (E_call i a)) = O_error ValueError)).
Proof.
  intros w i s a Hw Hs Hc. pose proof (call_cases w i s a Hw Hs) as K. cbv zeta in K. revert K. set (t := assign_cast _ _ _ _). intros K.
  assert (Tb : dt_background (ob_t t) = option_map (fun g j => astype (ca_dtype a) (g j)) (dt_background (ob_t (its_term w s)))) by reflexivity.
  assert (Ts : ob_shape t = ob_shape (its_term w s)) by reflexivity.
  split.
  - intros n sh ((g & Hg) & Hsh). replace (info_error (so_class s) t) with (Some TypeError) in K; [exact K|].
    unfold info_error. rewrite Hc, Tb, Hg, Ts, Hsh. reflexivity.
  - intros Hb. replace (info_error (so_class s) t) with (@None py_err) in K.
    + destruct K as (K1 & K2 & K3).
      assert (Ha : array_background (its_term w s) = false).
      { unfold array_background. destruct Hb as [-> | [[g ->] ->]]; reflexivity. }
      split.
      * intros [H|H]; [apply K1; exact H|]. apply K3; [exact Ha|]. apply Bool.not_true_is_false; intros E; apply per_pixel_array in E; contradiction.
      * intros H1 H2. apply K2; [exact H1|]. right. apply per_pixel_array. exact H2.
    + unfold info_error. rewrite Hc, Tb, Ts. destruct Hb as [-> | [[g ->] ->]]; reflexivity.
Qed.
(** and its description is empty unless there is a background number *)
Theorem C199_mlem_description_refuted : forall fmt t, dt_background (ob_t t) = None -> mlem_info fmt t = inr ""%string.
Proof. intros fmt t H. unfold mlem_info. rewrite H. reflexivity. Qed.
Theorem C199_mlem_description : forall fmt t g, dt_background (ob_t t) = Some g ->
  (ob_shape t = [] -> mlem_info fmt t = inr ("MLEM(B:" ++ fmt (g 0%nat) ++ ")")%string) /\
  (ob_shape t <> [] -> mlem_info fmt t = inl TypeError).
Proof.
  intros fmt t g H. unfold mlem_info. rewrite H. destruct (ob_shape t); split; intros; try reflexivity; congruence.
Qed.
(** the per-pixel case arises: three pixels, cross-validated SIRT, and MLEM *)
Example C199_instance :
  let w c := run start [E_term K_l2 (Some (fun _ => 1)) [3%nat]; E_solver c (U_var 0) None [] None 1 None] in
  let a := mkCA 3 3 unit_op (fun _ => 1) Floating None None None None None (Some (fun _ => 0)) None 5 in
  snd (step (w C_SIRT) (E_call 0 a)) = O_error ValueError /\ snd (step (w C_MLEM) (E_call 0 a)) = O_error TypeError.
Proof.
  cbv zeta. split.
  - eapply C199_gradient_solvers; [eexists; reflexivity|reflexivity|left; reflexivity|discriminate|].
    left. exists [3%nat]. split; [|cbn; lia]. split; [eexists; reflexivity|reflexivity].
  - eapply C199_mlem; [eexists; reflexivity|reflexivity|reflexivity|]. split; [eexists; reflexivity|reflexivity].
Qed.

(** * C200: the regularizer argument *)
Section Regs.
  Context {reg : Type}.
  Theorem C200_accepted : forall (r : reg) (rs : list reg),
    initialize_regularizer RA_none = RR_ok (@nil reg) /\ initialize_regularizer (RA_one r) = RR_ok [r] /\
    initialize_regularizer (RA_seq (map RE_reg rs)) = RR_ok rs.
  Proof.
    intros r rs. split; [reflexivity|]. split; [reflexivity|]. cbn.
    replace (forallb is_reg (map RE_reg rs)) with true by (induction rs; auto). f_equal. unfold the_regs. induction rs as [|x rs IH]; [reflexivity|]. cbn. rewrite IH. reflexivity.
  Qed.
  (** a sequence with any foreign element is rejected *)
  Theorem C200_rejected : forall (l : list (relem reg)), (exists i, nth_error l i = Some RE_other) ->
    exists ps, initialize_regularizer (RA_seq l) = RR_not_derived ps.
  Proof.
    intros l (i & Hi). cbn. replace (forallb is_reg l) with false; [eexists; reflexivity|]. symmetry.
    apply Bool.not_true_is_false. intros H. rewrite forallb_forall in H. apply nth_error_In in Hi. apply H in Hi. discriminate.
  Qed.
  (** but the positions in the message ("the following regularizers are not derived from BaseRegularizer") are exactly those of
      the proper regularizers, none of the offending ones *)
  Lemma reported_from (l : list (relem reg)) k i : In i (flat_map (fun ie => if is_reg (snd ie) then [fst ie] else []) (combine (seq k (length l)) l)) <->
    (k <= i)%nat /\ exists r, nth_error l (i - k) = Some (RE_reg r).
  Proof.
    revert k; induction l as [|e l IH]; intros k; cbn [length seq combine flat_map].
    - split; [intros []|]. intros [_ [r H]]. destruct (i - k)%nat; discriminate.
    - rewrite in_app_iff, IH. cbn [fst snd]. split.
      + intros [H|[H1 [r H2]]].
        * destruct e as [r|]; cbn in H; [|contradiction]. destruct H as [<-|[]]. split; [lia|]. exists r. rewrite Nat.sub_diag. reflexivity.
        * split; [lia|]. exists r. replace (i - k)%nat with (S (i - S k)) by lia. exact H2.
      + intros [H1 [r H2]]. destruct (Nat.eq_dec i k) as [->|Hne].
        * rewrite Nat.sub_diag in H2. cbn in H2. injection H2 as ->. left. cbn. auto.
        * right. split; [lia|]. exists r. replace (i - k)%nat with (S (i - S k)) in H2 by lia. exact H2.
  Qed.
  Theorem C200_message_refuted : forall (l : list (relem reg)) ps, initialize_regularizer (RA_seq l) = RR_not_derived ps ->
    (forall i, In i ps <-> exists r, nth_error l i = Some (RE_reg r)) /\
    (forall i, nth_error l i = Some RE_other -> ~ In i ps).
  Proof.
    intros l ps H. cbn in H. destruct (forallb is_reg l); [discriminate|]. injection H as <-.
    assert (K : forall i, In i (reported l) <-> exists r, nth_error l i = Some (RE_reg r)).
    { intros i. unfold reported. rewrite reported_from. rewrite Nat.sub_0_r. split; [intros [_ H]; exact H|]. intros H. split; [lia|exact H]. }
    split; [exact K|]. intros i Hi Hp. apply K in Hp. destruct Hp as [r Hr]. congruence.
  Qed.
  Theorem C200_other_types : initialize_regularizer (@RA_other reg) = RR_unknown.
  Proof. reflexivity. Qed.
End Regs.
Example C200_instance : initialize_regularizer (RA_seq [RE_reg true; RE_other; RE_reg false]) = RR_not_derived [0%nat; 2%nat].
Proof. reflexivity. Qed.

(** * C201: which regularizers FISTA takes *)
(** the classes without a primal proximal step *)
Definition no_primal_class (c : fclass) : Prop :=
  c = F_gradient \/ c = F_laplacian \/ c = F_median \/ c = F_svd \/ c = F_user_without_primal.
Theorem C201_more_than_one : forall r1 r2 rs fits, fista_accepts (r1 :: r2 :: rs) fits = inl ValueError.
Proof. reflexivity. Qed.
Theorem C201_none_needed : forall fits, fista_accepts [] fits = inr [].
Proof. reflexivity. Qed.
(** TV, smoothness, Laplacian, median and SVD regularizers are rejected at construction, fresh or used *)
Theorem C201_no_primal_rejected : forall r fits, no_primal_class (fr_class r) -> fista_accepts [r] fits = inl ValueError.
Proof. intros r fits H. unfold fista_accepts, primal_step. destruct H as [-> | [-> | [-> | [-> | ->]]]]; reflexivity. Qed.
(** l1, limits, Fourier and decimated wavelets, with a norm that has a primal step, are accepted and run *)
Theorem C201_usable : forall r fits, fr_norm_primal r = true ->
  fr_class r = F_l1 \/ fr_class r = F_limit \/ fr_class r = F_fourier \/ fr_class r = F_decimated ->
  fista_accepts [r] fits = inr [r] /\ fista_first_step r = None.
Proof.
  intros r fits Hn H. unfold fista_accepts, fista_first_step, primal_step, norm_step. cbn. rewrite Hn.
  destruct H as [-> | [-> | [-> | ->]]]; split; try reflexivity; destruct (fr_initialised r), fits; reflexivity.
Qed.
(** the check promises that what passes can be used; it does not hold for stationary wavelets: a new object passes and the first
    iteration fails, un-normalised (the default) or normalised; and the same un-normalised object is rejected if it has been
    used by another solver before *)
Theorem C201_stationary_refuted : forall norm fits normalized,
  let r := mkFR (F_stationary normalized) norm false in
  fista_accepts [r] fits = inr [r] /\
  fista_first_step r = Some (if normalized then AttributeError else NotImplementedError) /\
  (normalized = false -> fista_accepts [mkFR (F_stationary normalized) norm true] fits = inl ValueError).
Proof. intros norm fits []; cbn; repeat split; auto. discriminate. Qed.
(** nor for Fourier and decimated wavelets whose norm has no primal step *)
Theorem C201_nuclear_norm_refuted : forall c fits, c = F_fourier \/ c = F_decimated ->
  let r := mkFR c false false in fista_accepts [r] fits = inr [r] /\ fista_first_step r = Some NotImplementedError.
Proof. intros c fits [-> | ->]; split; reflexivity. Qed.
(** exactly which accepted objects then work *)
Theorem C201_works_iff : forall r, fista_first_step r = None <->
  fr_class r = F_limit \/ (fr_norm_primal r = true /\ (fr_class r = F_l1 \/ fr_class r = F_fourier \/ fr_class r = F_decimated)).
Proof.
  intros [c n i]. unfold fista_first_step, primal_step, norm_step. cbn [fr_class fr_norm_primal fr_initialised negb].
  destruct c as [| | | | | |[]| | |], n; cbn; split; intros H; try reflexivity; try discriminate; auto 8;
    repeat match goal with H : _ \/ _ |- _ => destruct H | H : _ /\ _ |- _ => destruct H end; discriminate.
Qed.

(** * C202: reconstructions in threads *)
Lemma astype_twice d x : astype d (astype d x) = astype d x.
Proof.
  destruct d; [reflexivity|]. cbn. unfold truncate at 2 3. destruct (Rle_dec 0 x); [apply truncate_whole|].
  rewrite <- opp_IZR. apply truncate_whole.
Qed.
Lemma assign_twice t b s : assign_data (assign_data t (Some b) s) (Some b) s = assign_data t (Some b) s.
Proof. symmetry. apply alike_assign_eq; [apply alike_assign|reflexivity]. Qed.

Section Thread.
  Context (s : sobj) (a : cargs) (o oe : dobj) (h0 : heap).
  Hypothesis Hsirt : so_class s = C_SIRT.
  Hypothesis Hne : so_dt s <> so_test s.
  Hypothesis Ho : fetch h0 (so_dt s) = o.
  Hypothesis Hoe : fetch h0 (so_test s) = oe.
  Let sg := the_sigma s a.
  Let t1 := assign_cast (ca_dtype a) o (ca_b a) sg.
  Let bm := fst (sirt_masks a).
  Let bt := snd (sirt_masks a).
  Let tau := diag_tau (ca_n a) (ca_op a) (so_regs s) (so_relax s) bm.
  Let te1 := match ca_btest a with None => oe | Some _ => assign_cast (ca_dtype a) (sync t1 oe) (ca_b a) sg end.
  Let body (te : dterm) := sirt_body (the_problem s a (ob_t t1) te) (ob_t t1) te bm bt sg tau.
  Let x0 := pick_x0 (ca_x0 a) vzeros.
  Let f0 (te : dterm) := init_info (ca_m a) (ob_t t1) te bm bt (so_tol s) (opA (ca_op a) x0) (new_info (ca_iterations a) (so_tol s)).
  (** the outcome of the same call running alone *)
  Let final := snd (call s a h0).

  Lemma sg_is : sg = diag_sigma (ca_m a) (ca_op a) 1 (ca_xmask a).
  Proof. unfold sg, the_sigma. rewrite Hsirt. reflexivity. Qed.
  Lemma masks_is : sirt_masks a = (bm, bt).
  Proof. unfold bm, bt. destruct (sirt_masks a); reflexivity. Qed.
  Lemma t1_again : assign_data (ob_t t1) (Some (ca_b a)) sg = ob_t t1.
  Proof. unfold t1, assign_cast. cbn [ob_t]. apply assign_twice. Qed.

  Lemma alone_test m : ca_btest a = Some m -> forall x, backgrounds_differ t1 oe = inr x ->
    final = inr (for_range (ca_iterations a) 0 (body (ob_t te1)) (x0, f0 (ob_t te1))).
  Proof.
    intros Hm x Hx. unfold final, call. rewrite Ho. fold sg. fold t1. unfold info_error. rewrite Hsirt. rewrite Hm.
    rewrite fetch_store_other by exact Hne. rewrite Hoe. rewrite Hx. cbn [snd]. f_equal.
    unfold run_numerics. rewrite Hsirt. unfold sirt_call. cbn [p_bmask p_btest the_problem]. fold (sirt_masks a). rewrite masks_is.
    cbv zeta. cbn [p_n p_op p_regs p_relax p_m p_xmask p_tol the_problem p_x0]. rewrite <- sg_is. fold tau. fold x0.
    set (te := ob_t (assign_cast _ _ _ _)).
    assert (E1 : assigned (the_problem s a (ob_t t1) te) sg = ob_t t1).
    { unfold assigned. cbn [p_dterm p_b the_problem]. exact t1_again. }
    assert (E2 : assigned_test (the_problem s a (ob_t t1) te) sg = ob_t te1).
    { unfold assigned_test. cbn [p_dterm p_dterm_test p_b the_problem]. unfold te1. rewrite Hm. unfold assign_cast. cbn [ob_t].
      apply alike_assign_eq.
      - apply (alike_trans _ (ob_t oe)); [|unfold sync; cbn [ob_t]; eapply alike_trans; [|apply alike_cast]; apply alike_sync].
        assert (S : forall u' v', alike u' v' -> alike v' u'). { intros u' v' (P & Q & W). unfold alike. rewrite <- P. split; [reflexivity|]. destruct (dt_kind u'); split; auto. }
        apply S. unfold te. eapply alike_trans; [|apply alike_sync]. eapply alike_trans; [|apply alike_assign_cast]. destruct x; [apply alike_sync|apply alike_refl].
      - unfold sync, cast_background, sync_background. cbn [dt_background ob_t]. unfold t1, assign_cast, assign_data, cast_background. cbn [ob_t dt_background].
        destruct (dt_background (ob_t o)) as [g|]; [|reflexivity]. cbn [option_map]. f_equal. apply functional_extensionality. intros j. symmetry. apply astype_twice. }
    rewrite E1, E2. reflexivity.
  Qed.
  Lemma alone_no_test : ca_btest a = None -> final = inr (for_range (ca_iterations a) 0 (body (ob_t te1)) (x0, f0 (ob_t te1))).
  Proof.
    intros Hm. unfold final, call. rewrite Ho. fold sg. fold t1. unfold info_error. rewrite Hsirt. rewrite Hm. cbn [snd]. f_equal.
    unfold run_numerics. rewrite Hsirt. unfold sirt_call. cbn [p_bmask p_btest the_problem]. fold (sirt_masks a). rewrite masks_is.
    cbv zeta. cbn [p_n p_op p_regs p_relax p_m p_xmask p_tol the_problem p_x0]. rewrite <- sg_is. fold tau. fold x0.
    assert (E1 : assigned (the_problem s a (ob_t t1) (ob_t t1)) sg = ob_t t1).
    { unfold assigned. cbn [p_dterm p_b the_problem]. exact t1_again. }
    rewrite E1. unfold body, f0. assert (Hbt : bt = None) by (unfold bt, sirt_masks; rewrite Hm; reflexivity). rewrite Hbt. reflexivity.
  Qed.
  Lemma alone_failed m : ca_btest a = Some m -> forall e, backgrounds_differ t1 oe = inl e -> final = inl e.
  Proof.
    intros Hm e He. unfold final, call. rewrite Ho. fold sg. fold t1. unfold info_error. rewrite Hsirt. rewrite Hm.
    rewrite fetch_store_other by exact Hne. rewrite Hoe. rewrite He. reflexivity.
  Qed.

  Definition on_track (th : thread) (h : heap) : Prop :=
    match th with
    | T_start => fetch h (so_dt s) = o /\ fetch h (so_test s) = oe
    | T_assigned => fetch h (so_dt s) = t1 /\ fetch h (so_test s) = oe
    | T_loop ii x f => fetch h (so_dt s) = t1 /\ fetch h (so_test s) = te1 /\ (ii <= ca_iterations a)%nat /\
                       final = inr (for_range (ca_iterations a - ii) ii (body (ob_t te1)) (x, f))
    | T_done x f => final = inr (x, f)
    | T_failed e => final = inl e
    end.
  Lemma on_track_step th h : (so_dt s < length h)%nat -> (so_test s < length h)%nat -> on_track th h ->
    on_track (snd (thread_step s a th h)) (fst (thread_step s a th h)).
  Proof.
    intros L1 L2 H. unfold thread_step. rewrite masks_is. fold sg.
    destruct th as [| |ii x f|x f|e]; [| | |exact H|exact H].
    - destruct H as [H1 H2]. cbn [fst snd on_track]. rewrite fetch_store_same by exact L1. rewrite fetch_store_other by exact Hne. rewrite H1. auto.
    - destruct H as [H1 H2].
      assert (Hcase : (exists m, ca_btest a = Some m) \/ ca_btest a = None) by (generalize (ca_btest a); intros [m|]; eauto).
      destruct Hcase as [[m Hm]|Hm]; rewrite Hm.
      + rewrite H1, H2. destruct (backgrounds_differ t1 oe) as [e|d] eqn:Hd; [cbn [fst snd on_track]; apply (alone_failed m Hm e Hd)|].
        cbn [fst snd on_track]. rewrite !(fetch_store_other (so_test s) (so_dt s)) by congruence. rewrite !fetch_store_same by exact L2. rewrite H1.
        assert (E : te1 = assign_cast (ca_dtype a) (sync t1 oe) (ca_b a) sg) by (unfold te1; rewrite Hm; reflexivity). rewrite <- E.
        split; [reflexivity|]. split; [reflexivity|]. split; [lia|]. rewrite Nat.sub_0_r. apply (alone_test m Hm d Hd).
      + assert (E : te1 = oe) by (unfold te1; rewrite Hm; reflexivity). cbn [fst snd on_track]. rewrite H1, H2, E.
        split; [reflexivity|]. split; [reflexivity|]. split; [lia|]. rewrite Nat.sub_0_r. rewrite <- E. apply (alone_no_test Hm).
    - destruct H as (H1 & H2 & H3 & H4). destruct (Nat.eqb_spec ii (ca_iterations a)) as [->|Hii].
      + cbn [fst snd on_track]. rewrite Nat.sub_diag in H4. exact H4.
      + rewrite H1, H2. fold tau. change (sirt_body _ (ob_t t1) (ob_t te1) bm bt sg tau ii (x, f)) with (body (ob_t te1) ii (x, f)).
        replace (ca_iterations a - ii)%nat with (S (ca_iterations a - S ii)) in H4 by lia. cbn [for_range] in H4.
        destruct (body (ob_t te1) ii (x, f)) as [[x' f'] brk]. destruct brk; cbn [fst snd on_track]; [exact H4|].
        rewrite H1, H2. split; [reflexivity|]. split; [reflexivity|]. split; [lia|exact H4].
  Qed.
  Lemma on_track_frame th h h' : fetch h' (so_dt s) = fetch h (so_dt s) -> fetch h' (so_test s) = fetch h (so_test s) -> on_track th h -> on_track th h'.
  Proof. intros E1 E2. destruct th; cbn [on_track]; rewrite ?E1, ?E2; auto. Qed.
End Thread.

Lemma thread_step_length s a th h : length (fst (thread_step s a th h)) = length h.
Proof.
  unfold thread_step. destruct (sirt_masks a) as [bm bt]. destruct th as [| |ii x f|x f|e]; try reflexivity.
  - cbn. apply store_length.
  - destruct (ca_btest a); [|reflexivity]. destruct (backgrounds_differ _ _); [reflexivity|]. cbn. apply store_length.
  - destruct (Nat.eqb _ _); [reflexivity|]. destruct (sirt_body _ _ _ _ _ _ _ _ _) as [[x' f'] []]; reflexivity.
Qed.
Lemma thread_step_frame s a th h l : l <> so_dt s -> l <> so_test s -> fetch (fst (thread_step s a th h)) l = fetch h l.
Proof.
  intros H1 H2. unfold thread_step. destruct (sirt_masks a) as [bm bt]. destruct th as [| |ii x f|x f|e]; try reflexivity.
  - cbn. apply fetch_store_other. congruence.
  - destruct (ca_btest a); [|reflexivity]. destruct (backgrounds_differ _ _); [reflexivity|]. cbn. apply fetch_store_other. congruence.
  - destruct (Nat.eqb _ _); [reflexivity|]. destruct (sirt_body _ _ _ _ _ _ _ _ _) as [[x' f'] []]; reflexivity.
Qed.

(** what a finished thread hands back, in the terms of a call *)
Definition thread_outcome (th : thread) : option outcome :=
  match th with T_done x f => Some (O_result x f) | T_failed e => Some (O_error e) | _ => None end.

(** C202a: two SIRT objects called from two threads: under every schedule, a thread that has finished has the outcome of its call
    running alone *)
Theorem C202_threads : forall w i j si sj ai aj sched h ti tj, reachable w -> i <> j ->
  nth_error (w_solvers w) i = Some si -> nth_error (w_solvers w) j = Some sj -> so_class si = C_SIRT -> so_class sj = C_SIRT ->
  interleave si sj ai aj sched (w_heap w, T_start, T_start) = (h, ti, tj) ->
  (forall out, thread_outcome ti = Some out -> out = snd (step w (E_call i ai))) /\
  (forall out, thread_outcome tj = Some out -> out = snd (step w (E_call j aj))).
Proof.
  intros w i j si sj ai aj sched h ti tj Hw Hij Hi Hj Ci Cj Hrun. destruct (reachable_disjoint w Hw) as [HN HB]. rewrite Forall_forall in HB.
  pose proof (NoDup_app_r _ _ HN) as HN'.
  pose proof (own_two _ _ _ HN' Hi) as Ni. pose proof (own_two _ _ _ HN' Hj) as Nj.
  destruct (solvers_apart _ _ _ _ _ HN' Hij Hi Hj) as (D1 & D2 & D3 & D4).
  destruct (solver_locs_in _ _ _ Hi) as [I1 I2]. destruct (solver_locs_in _ _ _ Hj) as [J1 J2].
  assert (B : forall l, In l (flat_map solver_locs (w_solvers w)) -> (l < length (w_heap w))%nat) by (intros l Hl; apply HB; apply in_app_iff; right; exact Hl).
  set (oi := its_term w si). set (oie := its_test_term w si). set (oj := its_term w sj). set (oje := its_test_term w sj).
  assert (G : forall sched h0 t1 t2, length h0 = length (w_heap w) -> on_track si ai oi oie (w_heap w) t1 h0 -> on_track sj aj oj oje (w_heap w) t2 h0 ->
    interleave si sj ai aj sched (h0, t1, t2) = (h, ti, tj) -> on_track si ai oi oie (w_heap w) ti h /\ on_track sj aj oj oje (w_heap w) tj h).
  { clear Hrun sched. induction sched as [|b sched IH]; intros h0 t1 t2 HL H1 H2 Hrun; cbn [interleave] in Hrun.
    - injection Hrun as <- <- <-. auto.
    - destruct b.
      + destruct (thread_step si ai t1 h0) as [h1 t1'] eqn:E. apply (IH h1 t1' t2); [| | |exact Hrun].
        * rewrite <- HL, <- (thread_step_length si ai t1 h0), E. reflexivity.
        * pose proof (on_track_step si ai oi oie (w_heap w) Ci Ni eq_refl eq_refl t1 h0) as K. rewrite E in K. apply K; rewrite ?HL; auto.
        * apply (on_track_frame sj aj oj oje (w_heap w) t2 h0 h1); [| |exact H2];
            pose proof (thread_step_frame si ai t1 h0) as K; rewrite E in K; cbn [fst] in K; apply K; congruence.
      + destruct (thread_step sj aj t2 h0) as [h1 t2'] eqn:E. apply (IH h1 t1 t2'); [| | |exact Hrun].
        * rewrite <- HL, <- (thread_step_length sj aj t2 h0), E. reflexivity.
        * apply (on_track_frame si ai oi oie (w_heap w) t1 h0 h1); [| |exact H1];
            pose proof (thread_step_frame sj aj t2 h0) as K; rewrite E in K; cbn [fst] in K; apply K; congruence.
        * pose proof (on_track_step sj aj oj oje (w_heap w) Cj Nj eq_refl eq_refl t2 h0) as K. rewrite E in K. apply K; rewrite ?HL; auto. }
  destruct (G sched (w_heap w) T_start T_start eq_refl) as [K1 K2]; [split; reflexivity|split; reflexivity|exact Hrun|].
  assert (F : forall k s a, nth_error (w_solvers w) k = Some s -> forall th o oe, on_track s a o oe (w_heap w) th h -> forall out, thread_outcome th = Some out -> out = snd (step w (E_call k a))).
  { intros k s a Hk th o oe Ht out Hout. cbn [step]. rewrite Hk. destruct (call s a (w_heap w)) as [h' r] eqn:E. cbn [snd].
    destruct th; cbn in Hout; try discriminate; injection Hout as <-; cbn [on_track] in Ht; rewrite E in Ht; cbn [snd] in Ht; rewrite Ht; reflexivity. }
  split; [apply (F i si ai Hi ti _ _ K1)|apply (F j sj aj Hj tj _ _ K2)].
Qed.

(** C202b: and it does finish, after at most iterations + 3 turns of its own *)
Definition remaining (a : cargs) (th : thread) : nat :=
  match th with
  | T_start => ca_iterations a + 3 | T_assigned => ca_iterations a + 2
  | T_loop ii _ _ => ca_iterations a - ii + 1 | _ => 0
  end.
Definition in_range (a : cargs) (th : thread) : Prop := match th with T_loop ii _ _ => (ii <= ca_iterations a)%nat | _ => True end.
Lemma remaining_step s a th h : in_range a th ->
  in_range a (snd (thread_step s a th h)) /\ (remaining a (snd (thread_step s a th h)) <= remaining a th - 1)%nat.
Proof.
  intros H. unfold thread_step. destruct (sirt_masks a) as [bm bt]. destruct th as [| |ii x f|x f|e].
  - cbn. split; [exact I|lia].
  - destruct (ca_btest a); [|cbn; lia]. destruct (backgrounds_differ _ _); cbn; split; try exact I; lia.
  - cbn in H. destruct (Nat.eqb_spec ii (ca_iterations a)); [cbn; split; [exact I|lia]|].
    destruct (sirt_body _ _ _ _ _ _ _ _ _) as [[x' f'] []]; cbn; split; try exact I; lia.
  - cbn. split; [exact I|lia].
  - cbn. split; [exact I|lia].
Qed.
Theorem C202_finishes : forall si sj ai aj sched h0 h ti tj,
  interleave si sj ai aj sched (h0, T_start, T_start) = (h, ti, tj) ->
  ((ca_iterations ai + 3 <= count_occ Bool.bool_dec sched true)%nat -> thread_outcome ti <> None) /\
  ((ca_iterations aj + 3 <= count_occ Bool.bool_dec sched false)%nat -> thread_outcome tj <> None).
Proof.
  intros si sj ai aj sched h0 h ti tj Hrun.
  assert (G : forall sched h0 t1 t2, in_range ai t1 -> in_range aj t2 -> interleave si sj ai aj sched (h0, t1, t2) = (h, ti, tj) ->
    (remaining ai ti <= remaining ai t1 - count_occ Bool.bool_dec sched true)%nat /\ (remaining aj tj <= remaining aj t2 - count_occ Bool.bool_dec sched false)%nat).
  { clear Hrun sched h0. induction sched as [|b sched IH]; intros h0 t1 t2 R1 R2 Hrun; cbn [interleave] in Hrun.
    - injection Hrun as <- <- <-. cbn. lia.
    - destruct b.
      + destruct (remaining_step si ai t1 h0 R1) as [A B]. destruct (thread_step si ai t1 h0) as [h1 t1'] eqn:E. cbn [snd] in A, B.
        destruct (IH h1 t1' t2 A R2 Hrun) as [C D]. cbn. lia.
      + destruct (remaining_step sj aj t2 h0 R2) as [A B]. destruct (thread_step sj aj t2 h0) as [h1 t2'] eqn:E. cbn [snd] in A, B.
        destruct (IH h1 t1 t2' R1 A Hrun) as [C D]. cbn. lia. }
  destruct (G sched h0 T_start T_start I I Hrun) as [A B]. cbn [remaining] in A, B. split; intros H.
  - destruct ti; cbn in *; try discriminate; lia.
  - destruct tj; cbn in *; try discriminate; lia.
Qed.

(** C202c: one object in two threads: the second call replaces the data under the first *)
Definition plain_world : world := run start [E_solver C_SIRT (U_str "l2") None [] None 1 None].
Theorem C202_same_object_refuted : exists s sched h x f tj,
  nth_error (w_solvers plain_world) 0 = Some s /\
  result_is (snd (step plain_world (E_call 0 (unit_args Floating 1)))) 1 /\
  interleave s s (unit_args Floating 1) (unit_args Floating 3) sched (w_heap plain_world, T_start, T_start) = (h, T_done x f, tj) /\ x 0%nat = 3.
Proof.
  exists (mkSO C_SIRT 0 1 [] None 1 None), [true; true; false; true; true]. change plain_world with (mkW [new_term K_l2; new_term K_l2] [] [mkSO C_SIRT 0 1 [] None 1 None]).
  do 4 eexists. split; [reflexivity|]. split.
  - pose proof unit_tau as E1. pose proof unit_sigma as E2. cbn -[diag_tau diag_sigma unit_op compute_residual Rmult Rplus].
    unfold vadd, vmul at 1. rewrite E1. cbn [opAt unit_op]. unfold vmul. rewrite E2. unfold compute_residual. cbn. unfold add_background. cbn. unfold vzeros. lra.
  - split; [reflexivity|]. pose proof unit_tau as E1. pose proof unit_sigma as E2.
    cbn -[diag_tau diag_sigma unit_op compute_residual Rmult Rplus].
    unfold vadd, vmul at 1. rewrite E1. cbn [opAt unit_op]. unfold vmul. rewrite E2. unfold compute_residual. cbn. unfold add_background. cbn. unfold vzeros. lra.
Qed.
(** two objects as the theorem wants them *)
Example C202_instance : exists w si sj, reachable w /\ nth_error (w_solvers w) 0 = Some si /\ nth_error (w_solvers w) 1 = Some sj /\
  so_class si = C_SIRT /\ so_class sj = C_SIRT.
Proof.
  exists (run start [E_term K_l2 (Some (fun _ => 1 / 2)) []; E_solver C_SIRT (U_var 0) None [] None 1 None; E_solver C_SIRT (U_var 0) None [] None 1 None]).
  do 2 eexists. split; [eexists; reflexivity|]. repeat split; reflexivity.
Qed.
