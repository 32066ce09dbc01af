(** Theorems about param_tuning.py: evaluation of hyper-parameters, loss values, cross-validation rounds (C177-C184). *)
From Coq Require Import Reals List String Bool ZArith Lra Lia Permutation.
From Verif Require Import PyErr Sums Rounding Arrays DataTermsProofs SolversModel AlignFitModel AlignFitProps ParamTuningModel ParamTuningProps TuningRunModel.
From Verif Require FiltersModel FiltersProps.
Import ListNotations.
Open Scope R_scope.

(** * Specifications *)
Section Spec.
  Context {Hp Sol Rec Val : Type}.
  Notation tuner := (tuner Hp Sol Rec Val).
  Notation kwds := (list (string * Val)).
  (** the task of hyper-parameter [h] returns [r]: the execution function is called with the solver that the initialization
      function builds from [h], or with [h] itself when there is none *)
  Definition runs (t : tuner) (kwi kwe : kwds) (h : Hp) (r : Rec * info) : Prop :=
    exists ex, tn_exec t = Some ex /\
    match tn_init t with
    | None => pycall ex (ArgHp h) kwe = inr r
    | Some g => exists s, pycall g h kwi = inr s /\ pycall ex (ArgSol s) kwe = inr r
    end.
  (** the task of [h] raises [e] *)
  Definition raises (t : tuner) (kwi kwe : kwds) (h : Hp) (e : py_err) : Prop :=
    exists ex, tn_exec t = Some ex /\
    match tn_init t with
    | None => pycall ex (ArgHp h) kwe = inl e
    | Some g => pycall g h kwi = inl e \/ exists s, pycall g h kwi = inr s /\ pycall ex (ArgSol s) kwe = inl e
    end.
  (** the documented values of parallel_eval, with a usable executor *)
  Definition usable (p : par_eval) (is_open : bool) : Prop :=
    match p with PyBool _ => True | PyInt z => (0 <= z)%Z | PyExecutor => is_open = true | PyOther _ => False end.
  Definition completes (order : list nat) (n : nat) : Prop := Permutation order (seq 0 n).

  Lemma runs_iff t ex kwi kwe h r : tn_exec t = Some ex -> (runs t kwi kwe h r <-> compute_reconstruction (tn_init t) ex kwi kwe h = inr r).
  Proof.
    intros E. unfold runs, compute_reconstruction. split.
    - intros (ex' & E' & H). assert (ex' = ex) by congruence. subst ex'. destruct (tn_init t) as [g|]; [|exact H].
      destruct H as (s & -> & H). exact H.
    - intros H. exists ex. split; [exact E|]. destruct (tn_init t) as [g|]; [|exact H].
      destruct (pycall g h kwi) as [e|s] eqn:Eg; [discriminate|]. exists s. auto.
  Qed.
  Lemma raises_iff t ex kwi kwe h e : tn_exec t = Some ex -> (raises t kwi kwe h e <-> compute_reconstruction (tn_init t) ex kwi kwe h = inl e).
  Proof.
    intros E. unfold raises, compute_reconstruction. split.
    - intros (ex' & E' & H). assert (ex' = ex) by congruence. subst ex'. destruct (tn_init t) as [g|]; [|exact H].
      destruct H as [->|(s & -> & H)]; [reflexivity|exact H].
    - intros H. exists ex. split; [exact E|]. destruct (tn_init t) as [g|]; [|exact H].
      destruct (pycall g h kwi) as [e'|s] eqn:Eg; [left; congruence|]. right. exists s. auto.
  Qed.

  Variables (num_cpus : nat) (dflt : Rec * info).
  Hypothesis Hcpu : (1 <= num_cpus)%nat.
  Notation process := (process_hp_vals num_cpus dflt).

  Lemma max_threads_bounds n : (1 <= n)%nat -> (1 <= max_threads n <= Z.of_nat n)%Z.
  Proof.
    intros H. unfold max_threads. split.
    - rewrite <- (rint_Z 1). apply rint_mono. replace 1 with (FiltersModel.log2 (2 ^ 1)).
      2:{ rewrite FiltersProps.log2_pow. simpl. ring. }
      destruct (Req_dec (2 ^ 1) (INR (n + 1))) as [->|Hne]; [lra|]. left. apply FiltersProps.log2_lt; [lra|].
      assert (2 ^ 1 <= INR (n + 1)); [|lra]. replace (2 ^ 1) with (INR 2) by (simpl; ring). apply le_INR. lia.
    - rewrite <- (rint_Z (Z.of_nat n)). apply rint_mono. rewrite <- INR_IZR_INZ, <- (FiltersProps.log2_pow n).
      assert (Hb : INR (n + 1) <= 2 ^ n).
      { rewrite plus_INR. change (INR 1) with 1. clear. induction n as [|n IH]; [simpl; lra|]. rewrite S_INR. cbn [pow].
        assert (1 <= 2 ^ n) by (apply pow_R1_Rle; lra). lra. }
      destruct Hb as [Hb|Hb]; [|right; f_equal; lra]. left. apply FiltersProps.log2_lt; [|exact Hb]. apply lt_0_INR. lia.
  Qed.

  (** * C177 *)
  (** every documented mode, every completion order: the results of the tasks, in the order of the hyper-parameters *)
  Theorem C177_every_mode : forall (t : tuner) is_open order hp kwi kwe (res : Hp -> Rec * info),
    usable (tn_par t) is_open -> completes order (List.length hp) -> tn_exec t <> None -> (forall h, In h hp -> runs t kwi kwe h (res h)) ->
    process t is_open order hp kwi kwe = (inr (map res hp), is_open).
  Proof.
    intros t o order hp kwi kwe res Hu Hc Hne Hr. destruct (tn_exec t) as [ex|] eqn:Ex; [|congruence]. clear Hne.
    unfold process_hp_vals. rewrite Ex. cbv zeta.
    assert (Ht : forall h, In h hp -> compute_reconstruction (tn_init t) ex kwi kwe h = inr (res h)).
    { intros h Hh. apply runs_iff; auto. }
    destruct (C45_parallel_is_serial (compute_reconstruction (tn_init t) ex kwi kwe) dflt res hp order Hc Ht) as [P S].
    destruct (tn_par t) as [[|]|z| |c]; cbn [norm_par usable] in *.
    - pose proof (max_threads_bounds num_cpus Hcpu). destruct (Z.eqb_spec (max_threads num_cpus) 0); [lia|].
      destruct (Z.ltb_spec (max_threads num_cpus) 0); [lia|]. rewrite P. reflexivity.
    - rewrite S. reflexivity.
    - destruct (Z.eqb_spec z 0); [rewrite S; reflexivity|]. destruct (Z.ltb_spec z 0); [lia|]. rewrite P. reflexivity.
    - subst o. cbn [negb andb]. rewrite P. reflexivity.
    - destruct Hu.
  Qed.
  (** a task that raises: the exception of one of the tasks that raise, never a partial result; only the caller's executor changes *)
  Theorem C177_failure : forall (t : tuner) is_open order hp kwi kwe h e,
    usable (tn_par t) is_open -> completes order (List.length hp) -> In h hp -> raises t kwi kwe h e ->
    exists e' h', In h' hp /\ raises t kwi kwe h' e' /\ fst (process t is_open order hp kwi kwe) = inl e' /\
      snd (process t is_open order hp kwi kwe) = match tn_par t with PyExecutor => false | _ => is_open end.
  Proof.
    intros t o order hp kwi kwe h e Hu Hc Hh Hr. destruct (tn_exec t) as [ex|] eqn:Ex.
    2:{ destruct Hr as (ex & E & _). congruence. }
    pose proof (proj1 (raises_iff t ex kwi kwe h e Ex) Hr) as Ht.
    unfold process_hp_vals. rewrite Ex. cbv zeta.
    destruct (C45_failure (compute_reconstruction (tn_init t) ex kwi kwe) dflt hp order h e Hc Hh Ht) as [(e1 & h1 & P & P1 & P2) (e2 & h2 & S & S1 & S2)].
    destruct (tn_par t) as [[|]|z| |c]; cbn [norm_par usable] in *.
    - exists e1, h1. rewrite (raises_iff t ex) by exact Ex.
      pose proof (max_threads_bounds num_cpus Hcpu). destruct (Z.eqb_spec (max_threads num_cpus) 0); [lia|].
      destruct (Z.ltb_spec (max_threads num_cpus) 0); [lia|]. rewrite P. auto.
    - exists e2, h2. rewrite (raises_iff t ex) by exact Ex. rewrite S. auto.
    - destruct (Z.eqb_spec z 0); [exists e2, h2|exists e1, h1]; rewrite (raises_iff t ex) by exact Ex; [rewrite S; auto|].
      destruct (Z.ltb_spec z 0); [lia|]. rewrite P. auto.
    - exists e1, h1. rewrite (raises_iff t ex) by exact Ex. subst o. cbn [negb andb]. rewrite P. auto.
    - destruct Hu.
  Qed.
  (** everything else is refused before any task runs *)
  Theorem C177_refused : forall (t : tuner) is_open order hp kwi kwe,
    (tn_exec t = None \/ (exists z, tn_par t = PyInt z /\ (z < 0)%Z) \/ (exists c, tn_par t = PyOther c)) ->
    process t is_open order hp kwi kwe = (inl ValueError, is_open).
  Proof.
    intros t o order hp kwi kwe H. unfold process_hp_vals. destruct (tn_exec t) as [ex|]; [|reflexivity].
    destruct H as [H|[(z & E & Hz)|(c & E)]]; [discriminate| |]; rewrite E; cbn [norm_par]; [|reflexivity].
    destruct (Z.eqb_spec z 0); [lia|]. destruct (Z.ltb_spec z 0); [reflexivity|lia].
  Qed.
  (** what a call does: the argument binds the first named parameter; the body runs exactly when the keywords fit the remaining ones *)
  Definition binds (params : list (string * pkind)) (keys : list string) : Prop :=
    exists p0 rest, filter (fun p => negb (is_varkw (snd p))) params = p0 :: rest /\ ~ In (fst p0) keys /\
      ((exists v, In v params /\ snd v = VarKw) \/ forall k, In k keys -> In k (map fst rest)) /\ (forall p, In p rest -> snd p = Required -> In (fst p) keys).
  Lemma mem_in k l : mem k l = true <-> In k l.
  Proof. unfold mem. rewrite existsb_exists. split; [intros (x & Hx & E); apply String.eqb_eq in E; subst; exact Hx|intros H; exists k; rewrite String.eqb_refl; auto]. Qed.
  Lemma req_in (rest : list (string * pkind)) keys : forallb (fun p => mem (fst p) keys) (filter (fun p => is_required (snd p)) rest) = true <->
    (forall p, In p rest -> snd p = Required -> In (fst p) keys).
  Proof.
    rewrite forallb_forall. split; intros H p Hi.
    - intros Hr. apply mem_in, H. apply filter_In. rewrite Hr. auto.
    - apply filter_In in Hi. destruct Hi as [H1 H2]. apply mem_in. apply H; [exact H1|]. destruct (snd p); cbn in H2; congruence.
  Qed.
  Theorem C177_call : forall A B (f : pyfun Val A B) a kw, (binds (f_params f) (map fst kw) -> pycall f a kw = f_run f a kw) /\
    (~ binds (f_params f) (map fst kw) -> pycall f a kw = inl TypeError).
  Proof.
    intros A B f a kw. unfold pycall, binds. destruct (filter _ (f_params f)) as [|p0 rest].
    { split; [intros (p & r & E & _); discriminate|reflexivity]. }
    set (vk := existsb (fun p => is_varkw (snd p)) (f_params f)).
    assert (Hv : vk = true <-> exists v, In v (f_params f) /\ snd v = VarKw).
    { unfold vk. rewrite existsb_exists. split; intros (v & H1 & H2); exists v; (split; [exact H1|]); destruct (snd v); cbn in *; congruence. }
    destruct (mem (fst p0) (map fst kw)) eqn:E0.
    { apply mem_in in E0. split; [intros (p & r & E & N & _); injection E as <- <-; contradiction|reflexivity]. }
    assert (N0 : ~ In (fst p0) (map fst kw)) by (rewrite <- mem_in; congruence).
    pose proof (req_in rest (map fst kw)) as R.
    assert (K : forallb (fun k => mem k (map fst rest)) (map fst kw) = true <-> forall k, In k (map fst kw) -> In k (map fst rest)).
    { rewrite forallb_forall. split; intros H k Hk; apply mem_in, H, Hk. }
    destruct (forallb (fun k => mem k (map fst rest)) (map fst kw)); destruct vk; cbn [negb andb];
      destruct (forallb (fun p => mem (fst p) (map fst kw)) (filter (fun p => is_required (snd p)) rest)); cbn [negb];
      (split; [intros (p & r & E & H1 & H2 & H3); injection E as <- <-; try reflexivity; exfalso|intros N; try reflexivity; exfalso; apply N; exists p0, rest]).
    all: try (apply R in H3; discriminate).
    all: try (destruct H2 as [H2|H2]; [apply Hv in H2|apply K in H2]; discriminate).
    all: repeat split; auto; try (apply R; reflexivity).
    - right. apply K. reflexivity.
    - right. apply K. reflexivity.
    - left. apply Hv. reflexivity.
  Qed.
  (** the setters: exactly one parameter, at least one parameter; a refused function leaves no tuner behind *)
  Theorem C177_setters : forall (t : tuner) (g : pyfun Val Hp Sol) (f : pyfun Val (targ Hp Sol) (Rec * info)),
    (List.length (f_params g) = 1%nat -> exists t', set_task_init t (Some (Some g)) = inr t' /\ tn_init t' = Some g /\ tn_exec t' = tn_exec t /\ tn_par t' = tn_par t) /\
    (List.length (f_params g) <> 1%nat -> set_task_init t (Some (Some g)) = inl ValueError) /\
    set_task_init t (Some None) = inl ValueError /\
    (exists t', set_task_init t None = inr t' /\ tn_init t' = None /\ tn_exec t' = tn_exec t /\ tn_par t' = tn_par t) /\
    (f_params f <> [] -> exists t', set_task_exec t (Some f) = inr t' /\ tn_exec t' = Some f /\ tn_init t' = tn_init t /\ tn_par t' = tn_par t) /\
    (f_params f = [] -> set_task_exec t (Some f) = inl ValueError) /\ set_task_exec t None = inl ValueError.
  Proof.
    intros t g f. unfold set_task_init, set_task_exec. repeat split.
    - intros ->. cbn. eexists; cbn; auto.
    - intros H. destruct (Nat.eqb_spec (List.length (f_params g)) 1); [contradiction|reflexivity].
    - eexists; cbn; auto.
    - intros H. destruct (f_params f); [congruence|]. cbn. eexists; cbn; auto.
    - intros ->. reflexivity.
  Qed.
  (** REFUTED: a function accepted by the setter can be called.  One whose only parameter collects keyword arguments is accepted
      and then no evaluation succeeds. *)
  Theorem C177_setter_varkw_refuted : forall (t : tuner) n body, let f := mkFun [(n, VarKw)] body in
    exists t', set_task_exec t (Some f) = inr t' /\
      forall is_open order h hp kwi kwe, usable (tn_par t) is_open -> tn_init t = None -> completes order (List.length (h :: hp)) ->
        fst (process t' is_open order (h :: hp) kwi kwe) = inl TypeError.
  Proof.
    intros t n body f. unfold set_task_exec. cbn. eexists. split; [reflexivity|].
    intros o order h hp kwi kwe Hu Hi Hc.
    set (t' := mkTuner (tn_init t) (Some f) (tn_par t) (tn_verbose t) (tn_plot t)).
    assert (Hall : forall h' e, raises t' kwi kwe h' e <-> e = TypeError).
    { intros h' e. rewrite (raises_iff t' f) by reflexivity. unfold compute_reconstruction, t'. cbn [tn_init]. rewrite Hi. cbn. split; congruence. }
    destruct (C177_failure t' o order (h :: hp) kwi kwe h TypeError) as (e' & h' & _ & Hr & E & _);
      [exact Hu|exact Hc|left; reflexivity|apply Hall; reflexivity|].
    apply Hall in Hr. subst e'. exact E.
  Qed.

  (** * C178: histories of calls on one tuner.  Each call has its own hyper-parameters, arguments and completion order. *)
  Record hcall := mkCall { hc_order : list nat; hc_hp : list Hp; hc_kwi : kwds; hc_kwe : kwds }.
  Fixpoint history (t : tuner) (is_open : bool) (cs : list hcall) : list (py_err + list (Rec * info)) :=
    match cs with
    | [] => []
    | c :: cs' => let '(r, o) := process t is_open (hc_order c) (hc_hp c) (hc_kwi c) (hc_kwe c) in r :: history t o cs'
    end.
  Definition fresh (t : tuner) (c : hcall) : py_err + list (Rec * info) := fst (process t true (hc_order c) (hc_hp c) (hc_kwi c) (hc_kwe c)).
  (** threads of the tuner's own: no call is affected by the previous ones *)
  Theorem C178_own_threads : forall (t : tuner) is_open cs, tn_par t <> PyExecutor -> history t is_open cs = map (fresh t) cs.
  Proof.
    intros t o cs Hpar. revert o. induction cs as [|c cs IH]; intros o; [reflexivity|]. cbn [history map].
    assert (E : process t o (hc_order c) (hc_hp c) (hc_kwi c) (hc_kwe c) = (fresh t c, o)).
    { unfold fresh, process_hp_vals. destruct (tn_exec t); [|reflexivity]. cbv zeta.
      destruct (tn_par t) as [[|]|z| |b]; cbn [norm_par]; try congruence; try reflexivity.
      - destruct (Z.eqb (max_threads num_cpus) 0); [reflexivity|]. destruct (Z.ltb (max_threads num_cpus) 0); reflexivity.
      - destruct (Z.eqb z 0); [reflexivity|]. destruct (Z.ltb z 0); reflexivity. }
    rewrite E, IH. reflexivity.
  Qed.
  (** the caller's executor: unaffected while no call fails ... *)
  Theorem C178_executor_no_failure : forall (t : tuner) cs, tn_exec t <> None ->
    (forall c, In c cs -> exists rs, fresh t c = inr rs) -> history t true cs = map (fresh t) cs.
  Proof.
    intros t cs Hne Hok. destruct (tn_par t) eqn:Ep; try (apply C178_own_threads; congruence).
    induction cs as [|c cs IH]; [reflexivity|]. cbn [history map].
    destruct (Hok c (or_introl eq_refl)) as [rs Hrs].
    assert (E : process t true (hc_order c) (hc_hp c) (hc_kwi c) (hc_kwe c) = (fresh t c, true)).
    { revert Hrs. unfold fresh, process_hp_vals. destruct (tn_exec t); [|reflexivity]. rewrite Ep. cbn [norm_par negb andb].
      destruct (parallel_compute _ _ _ _); cbn [fst]; [discriminate|reflexivity]. }
    rewrite E, IH; [reflexivity|]. intros c' Hc'. apply Hok. right. exact Hc'.
  Qed.
  (** ... REFUTED in general: after a call in which a task raised, every later evaluation of at least one value on the caller's
      executor fails, whatever its tasks are *)
  Theorem C178_executor_refuted : forall (t : tuner) c cs h e, tn_par t = PyExecutor -> completes (hc_order c) (List.length (hc_hp c)) ->
    In h (hc_hp c) -> raises t (hc_kwi c) (hc_kwe c) h e -> Forall (fun c' => hc_hp c' <> []) cs ->
    exists e', history t true (c :: cs) = inl e' :: map (fun _ => inl RuntimeError) cs.
  Proof.
    intros t c cs h e Hpar Hc Hh Hr Hcs.
    destruct (C177_failure t true (hc_order c) (hc_hp c) (hc_kwi c) (hc_kwe c) h e) as (e' & h' & _ & Hr' & E1 & E2); auto.
    { rewrite Hpar. reflexivity. }
    rewrite Hpar in E2. exists e'. cbn [history]. destruct (process t true (hc_order c) (hc_hp c) (hc_kwi c) (hc_kwe c)) as [r o].
    cbn [fst snd] in *. subst r o. f_equal.
    assert (Hx : exists ex, tn_exec t = Some ex) by (destruct Hr as (ex & E & _); eauto). destruct Hx as [ex Ex].
    clear Hr'. induction Hcs as [|c' cs Hne Hcs IH]; [reflexivity|]. cbn [history map]. unfold process_hp_vals at 1.
    rewrite Ex, Hpar. cbn [norm_par negb]. destruct (hc_hp c'); [congruence|]. cbn [is_nil negb andb]. rewrite IH. reflexivity.
  Qed.

  (** * C180: L-curve *)
  Lemma map_err_ok {A B E} (f : A -> E + B) (g : A -> B) l : (forall a, In a l -> f a = inr (g a)) -> map_err f l = inr (map g l).
  Proof.
    induction l as [|a l IH]; intros H; [reflexivity|]. cbn. rewrite (H a (or_introl eq_refl)), IH; [reflexivity|].
    intros b Hb. apply H. right. exact Hb.
  Qed.
  Lemma map_err_fail {A B E} (f : A -> E + B) l a e : In a l -> f a = inl e -> exists e' a', In a' l /\ f a' = inl e' /\ map_err f l = inl e'.
  Proof.
    induction l as [|b l IH]; intros Hi He; [destruct Hi|]. cbn. destruct (f b) as [eb|rb] eqn:Eb.
    - exists eb, b. auto.
    - destruct Hi as [->|Hi]; [congruence|]. destruct (IH Hi He) as (e' & a' & H1 & H2 & H3). exists e', a'. rewrite H3. auto.
  Qed.
  Theorem C180_lcurve : forall (t : tuner) loss lossv is_open order hp kwi kwe (res : Hp -> Rec * info),
    usable (tn_par t) is_open -> completes order (List.length hp) -> tn_exec t <> None -> hp <> [] \/ tn_verbose t = false ->
    (forall h, In h hp -> runs t kwi kwe h (res h) /\ loss (fst (res h)) = inr (lossv h)) ->
    lcurve_loss num_cpus dflt t loss is_open order hp kwi kwe = (inr (map lossv hp, map (fun h => fst (res h)) hp, map (fun h => snd (res h)) hp), is_open).
  Proof.
    intros t loss lv o order hp kwi kwe res Hu Hc Hne Hv H. unfold lcurve_loss.
    assert (V : verbose_report t hp = None).
    { unfold verbose_report. destruct (tn_verbose t); [|reflexivity]. destruct Hv as [Hv|Hv]; [|discriminate].
      destruct hp; [congruence|]. cbn. destruct (tn_par t); try reflexivity. destruct Hu. }
    rewrite V, (C177_every_mode t o order hp kwi kwe res) by (auto; intros h Hh; apply H; exact Hh).
    assert (E : map_err loss (map fst (map res hp)) = inr (map lv hp)).
    { rewrite map_map. clear -H. induction hp as [|h hp IH]; [reflexivity|]. cbn.
      rewrite (proj2 (H h (or_introl eq_refl))), IH; [reflexivity|]. intros h' Hh'. apply H. right. exact Hh'. }
    rewrite E, !map_map. reflexivity.
  Qed.
  (** a loss function that does not take exactly one argument is refused; a failing task or a failing loss is an exception *)
  Theorem C180_refused : forall n, lcurve_init_ok n = true <-> n = Some 1%nat.
  Proof. intros [n|]; cbn; [|split; discriminate]. split; [intros H; apply Nat.eqb_eq in H; congruence|intros [= ->]; reflexivity]. Qed.
  Theorem C180_failure : forall (t : tuner) loss is_open order hp kwi kwe h, usable (tn_par t) is_open -> completes order (List.length hp) -> In h hp ->
    ((exists e, raises t kwi kwe h e) \/ (forall h', In h' hp -> exists r, runs t kwi kwe h' r) /\ exists r e, runs t kwi kwe h r /\ loss (fst r) = inl e) ->
    exists e, fst (lcurve_loss num_cpus dflt t loss is_open order hp kwi kwe) = inl e.
  Proof.
    intros t loss o order hp kwi kwe h Hu Hc Hh H. unfold lcurve_loss.
    destruct (verbose_report t hp) as [e|]; [exists e; reflexivity|].
    destruct H as [[e He]|[Hall (r & e & Hr & He)]].
    - destruct (C177_failure t o order hp kwi kwe h e Hu Hc Hh He) as (e' & h' & _ & _ & E & _).
      destruct (process t o order hp kwi kwe) as [r o']. cbn [fst] in E. subst r. exists e'. reflexivity.
    - destruct (Hr) as (ex & Ex & _).
      set (task := compute_reconstruction (tn_init t) ex kwi kwe).
      set (res := fun h => match task h with inr r => r | inl _ => dflt end).
      assert (Hres : forall h', In h' hp -> runs t kwi kwe h' (res h')).
      { intros h' Hh'. destruct (Hall h' Hh') as [r' Hr']. unfold res, task. rewrite (proj1 (runs_iff t ex kwi kwe h' r' Ex) Hr'). exact Hr'. }
      rewrite (C177_every_mode t o order hp kwi kwe res) by (auto; congruence).
      assert (Er : res h = r) by (unfold res, task; rewrite (proj1 (runs_iff t ex kwi kwe h r Ex) Hr); reflexivity).
      destruct (map_err_fail loss (map fst (map res hp)) (fst r) e) as (e' & a & _ & _ & ->); [|exact He|].
      + apply in_map. rewrite <- Er. apply in_map. exact Hh.
      + exists e'. reflexivity.
  Qed.

  (** * C181: cross-validation *)
  Lemma kw_get_set k n (v : Val) d : kw_get k (kw_set n v d) = if String.eqb k n then Some v else kw_get k d.
  Proof.
    induction d as [|[k' v'] d IH]; cbn; [reflexivity|]. destruct (String.eqb_spec n k') as [<-|Hn]; cbn.
    - destruct (String.eqb k n); reflexivity.
    - rewrite IH. destruct (String.eqb_spec k n) as [->|Hk]; [|reflexivity]. destruct (String.eqb_spec n k'); [contradiction|reflexivity].
  Qed.
  (** the arguments [d] of a round: the mask [m] under the name [name], everything else as the caller gave it *)
  Definition round_kwds (inj : arr -> Val) (name : string) (m : arr) (kwe d : kwds) : Prop :=
    kw_get name d = Some (inj m) /\ forall k, k <> name -> kw_get k d = kw_get k kwe.
  Lemma round_kwds_set inj name m kwe kwe0 : (forall k, k <> name -> kw_get k kwe0 = kw_get k kwe) -> round_kwds inj name m kwe (kw_set name (inj m) kwe0).
  Proof.
    intros H. split; [rewrite kw_get_set, String.eqb_refl; reflexivity|]. intros k Hk. rewrite kw_get_set.
    destruct (String.eqb_spec k name); [contradiction|]. apply H, Hk.
  Qed.
  Lemma cv_rounds_ok (t : tuner) inj name hp kwi kwe orders (res : nat -> Hp -> Rec * info) is_open :
    usable (tn_par t) is_open -> tn_exec t <> None -> (forall r, completes (orders r) (List.length hp)) ->
    forall masks ii kwe0, (forall k, k <> name -> kw_get k kwe0 = kw_get k kwe) ->
    (forall r h d, (r < List.length masks)%nat -> In h hp -> round_kwds inj name (nth r masks (fun _ => 0)) kwe d -> runs t kwi d h (res (ii + r)%nat h)) ->
    (forall r h, (r < List.length masks)%nat -> In h hp -> (0 < i_max_iterations (snd (res (ii + r)%nat h)))%nat) ->
    cv_rounds num_cpus dflt t inj name masks ii is_open orders hp kwi kwe0 =
      (inr (map (fun r => (map (res r) hp, map (fun h => cv_loss (snd (res r h))) hp)) (seq ii (List.length masks))), is_open).
  Proof.
    intros Hu Hne Hc. induction masks as [|m masks IH]; intros ii kwe0 Hk Hr Hm; [reflexivity|]. cbn [cv_rounds List.length seq map].
    rewrite (C177_every_mode t is_open (orders ii) hp kwi _ (res ii)); [|exact Hu|apply Hc|exact Hne|].
    2:{ intros h Hh. specialize (Hr 0%nat h (kw_set name (inj m) kwe0)). rewrite Nat.add_0_r in Hr. apply Hr; [cbn; lia|exact Hh|].
        apply round_kwds_set. exact Hk. }
    assert (E : map_err cv_val (map snd (map (res ii) hp)) = inr (map (fun h => cv_loss (snd (res ii h))) hp)).
    { rewrite map_map. specialize (fun h => Hm 0%nat h ltac:(cbn; lia)). rewrite Nat.add_0_r in Hm. clear -Hm.
      induction hp as [|h hp IH]; [reflexivity|]. cbn. unfold cv_val at 1. assert (H := Hm h (or_introl eq_refl)).
      destruct (Nat.eqb_spec (i_max_iterations (snd (res ii h))) 0); [lia|]. rewrite IH; [reflexivity|]. intros h' Hh'. apply Hm. right. exact Hh'. }
    rewrite E, (IH (S ii) (kw_set name (inj m) kwe0)); [reflexivity| | |].
    - intros k Hk'. rewrite kw_get_set. destruct (String.eqb_spec k name); [contradiction|]. apply Hk, Hk'.
    - intros r h d Hlt Hh Hd. replace (S ii + r)%nat with (ii + S r)%nat by lia. apply Hr; [cbn; lia|exact Hh|exact Hd].
    - intros r h Hlt Hh. replace (S ii + r)%nat with (ii + S r)%nat by lia. apply Hm; [cbn; lia|exact Hh].
  Qed.
  (** the loss of round [r] at position [j] *)
  Definition round_loss (res : nat -> Hp -> Rec * info) (r : nat) (h : Hp) : R := cv_loss (snd (res r h)).
  Definition mean_of (n : nat) (f : nat -> R) : R := rsum n f / INR n.
  Definition pstd_of (n : nat) (f : nat -> R) : R := sqrt (mean_of n (fun r => (f r - mean_of n f) ^ 2)).
  Lemma lsum_seq {A} (g : nat -> A) (f : A -> R) n : lsum (map g (seq 0 n)) f = rsum n (fun r => f (g r)).
  Proof.
    induction n as [|n IH]; [reflexivity|]. rewrite seq_S, map_app, lsum_app, IH. cbn. ring.
  Qed.
  (** round [r] evaluates every value with the mask of round [r] (whatever the caller passed under that name) and the caller's
      other arguments; averages and standard deviations are over the rounds *)
  Theorem C181_rounds : forall (t : tuner) ex inj kfold name masks is_open orders hp kwi kwe (res : nat -> Hp -> Rec * info),
    usable (tn_par t) is_open -> (forall r, completes (orders r) (List.length hp)) -> hp <> [] \/ tn_verbose t = false ->
    tn_exec t = Some ex -> In name (map fst (f_params ex)) -> masks <> [] ->
    (forall r h d, (r < List.length masks)%nat -> In h hp -> round_kwds inj name (nth r masks (fun _ => 0)) kwe d -> runs t kwi d h (res r h)) ->
    (forall r h, (r < List.length masks)%nat -> In h hp -> (0 < i_max_iterations (snd (res r h)))%nat) ->
    exists out, cv_compute num_cpus dflt t inj kfold name masks is_open orders hp kwi kwe = (inr out, is_open) /\
      fst out = Some (map (fun h => mean_of (List.length masks) (fun r => round_loss res r h)) hp, map (fun h => pstd_of (List.length masks) (fun r => round_loss res r h)) hp) /\
      List.length (snd out) = List.length masks /\
      forall r, (r < List.length masks)%nat -> nth_error (snd out) r = Some (map (res r) hp, map (round_loss res r) hp).
  Proof.
    intros t ex inj kf name masks o orders hp kwi kwe res Hu Hc Hv Ex Hn Hmk Hr Hm. unfold cv_compute. rewrite Ex.
    assert (Mn : mem name (map fst (f_params ex)) = true) by (apply existsb_exists; exists name; rewrite String.eqb_refl; auto).
    rewrite Mn. change (negb true) with false. cbv iota.
    assert (Z0 : (tn_verbose t && kf && negb (is_nil hp) && @is_nil arr masks)%bool = false).
    { destruct masks; [congruence|]. cbn. rewrite Bool.andb_false_r. reflexivity. }
    rewrite Z0.
    assert (V : verbose_report t hp = None).
    { unfold verbose_report. destruct (tn_verbose t); [|reflexivity]. destruct Hv as [Hv|Hv]; [|discriminate].
      destruct hp; [congruence|]. cbn. destruct (tn_par t); try reflexivity. destruct Hu. }
    rewrite V.
    rewrite (cv_rounds_ok t inj name hp kwi kwe orders res o Hu ltac:(congruence) Hc masks 0 kwe) by (auto; intros; reflexivity).
    eexists. split; [reflexivity|]. cbn [fst snd]. set (n := List.length masks) in *.
    assert (Hn0 : (0 < n)%nat) by (unfold n; destruct masks; [congruence|cbn; lia]).
    assert (Enz : forall (A B : Type) (g : nat -> A) (u v : B), match map g (seq 0 n) with [] => u | _ => v end = v).
    { intros. destruct n as [|n']; [lia|]. reflexivity. }
    split; [|split].
    - rewrite Enz. f_equal. rewrite map_map.
      assert (Ef : map (fun r => snd (map (res r) hp, map (fun h => cv_loss (snd (res r h))) hp)) (seq 0 n) = map (fun r => map (round_loss res r) hp) (seq 0 n)) by reflexivity.
      rewrite Ef. clear Ef Enz.
      assert (Em : forall j h, nth_error hp j = Some h -> cv_mean (map (fun r => map (round_loss res r) hp) (seq 0 n)) j = mean_of n (fun r => round_loss res r h)).
      { intros j h Hj. unfold cv_mean, mean_of. rewrite lsum_seq, map_length, seq_length. f_equal. apply rsum_ext. intros r _.
        apply nth_error_nth. rewrite nth_error_map, Hj. reflexivity. }
      assert (Es : forall j h, nth_error hp j = Some h -> cv_std (map (fun r => map (round_loss res r) hp) (seq 0 n)) j = pstd_of n (fun r => round_loss res r h)).
      { intros j h Hj. unfold cv_std, pstd_of. rewrite (Em j h Hj). unfold mean_of at 2. rewrite lsum_seq, map_length, seq_length. f_equal. f_equal.
        apply rsum_ext. intros r _. f_equal. f_equal. apply nth_error_nth. rewrite nth_error_map, Hj. reflexivity. }
      assert (G : forall (F : nat -> R) (G : Hp -> R), (forall j h, nth_error hp j = Some h -> F j = G h) -> map F (seq 0 (List.length hp)) = map G hp).
      { intros F G HFG. apply list_ext. intros k. rewrite !nth_error_map. destruct (nth_error hp k) as [h|] eqn:Ek.
        - assert (k < List.length hp)%nat by (apply nth_error_Some; congruence).
          rewrite (nth_error_nth' (seq 0 (List.length hp)) 0%nat) by (rewrite seq_length; lia). rewrite seq_nth by lia. cbn. f_equal. apply HFG, Ek.
        - rewrite (proj2 (nth_error_None (seq 0 (List.length hp)) k)); [reflexivity|]. rewrite seq_length. apply nth_error_None. exact Ek. }
      rewrite (G _ _ Em), (G _ _ Es). reflexivity.
    - rewrite map_length, seq_length. reflexivity.
    - intros r Hlt. rewrite nth_error_map. rewrite (nth_error_nth' (seq 0 n) 0%nat) by (rewrite seq_length; lia). rewrite seq_nth by lia. reflexivity.
  Qed.
  (** a task that raises in some round makes the whole evaluation raise *)
  Theorem C181_failure : forall (t : tuner) inj kfold name masks is_open orders hp kwi kwe r h,
    usable (tn_par t) is_open -> (forall r, completes (orders r) (List.length hp)) -> (r < List.length masks)%nat -> In h hp ->
    (forall d, round_kwds inj name (nth r masks (fun _ => 0)) kwe d -> exists e, raises t kwi d h e) ->
    exists e, fst (cv_compute num_cpus dflt t inj kfold name masks is_open orders hp kwi kwe) = inl e.
  Proof.
    intros t inj kf name masks o orders hp kwi kwe r h Hu Hc Hlt Hh Hr. unfold cv_compute.
    destruct (tn_exec t) as [ex|] eqn:Ex; [|exists ValueError; reflexivity].
    destruct (negb (mem name (map fst (f_params ex)))); [exists ValueError; reflexivity|].
    destruct (tn_verbose t && kf && negb (is_nil hp) && @is_nil arr masks)%bool; [exists ZeroDivisionError; reflexivity|].
    destruct (verbose_report t hp) as [e|]; [exists e; reflexivity|].
    assert (G : forall masks ii r kwe0, (r < List.length masks)%nat -> (forall k, k <> name -> kw_get k kwe0 = kw_get k kwe) ->
      (forall d, round_kwds inj name (nth r masks (fun _ => 0)) kwe d -> exists e, raises t kwi d h e) ->
      exists e o', cv_rounds num_cpus dflt t inj name masks ii o orders hp kwi kwe0 = (inl e, o')).
    { clear masks r Hlt Hr. induction masks as [|m masks IH]; intros ii r kwe0 Hlt Hk Hr; [cbn in Hlt; lia|]. cbn [cv_rounds].
      set (kwe' := kw_set name (inj m) kwe0).
      destruct r as [|r].
      - destruct (Hr kwe') as [e He]; [apply round_kwds_set; exact Hk|].
        destruct (C177_failure t o (orders ii) hp kwi kwe' h e Hu (Hc ii) Hh He) as (e' & h' & _ & _ & E & _).
        destruct (process t o (orders ii) hp kwi kwe') as [x o']. cbn [fst] in E. subst x. exists e', o'. reflexivity.
      - destruct (process t o (orders ii) hp kwi kwe') as [[e|rs] o'] eqn:Ep; [exists e, o'; reflexivity|].
        assert (o' = o).
        { revert Ep. unfold process_hp_vals. rewrite Ex. cbv zeta. destruct (tn_par t) as [[|]|z| |b]; cbn [norm_par].
          - destruct (Z.eqb (max_threads num_cpus) 0); [congruence|]. destruct (Z.ltb (max_threads num_cpus) 0); congruence.
          - congruence.
          - destruct (Z.eqb z 0); [congruence|]. destruct (Z.ltb z 0); congruence.
          - destruct (negb o && negb (is_nil hp))%bool; [congruence|]. destruct (parallel_compute _ _ _ _); congruence.
          - congruence. }
        subst o'. destruct (map_err cv_val (map snd rs)) as [e|fs]; [exists e, o; reflexivity|].
        destruct (IH (S ii) r kwe') as (e & o' & E); [cbn in Hlt; lia| |exact Hr|].
        + intros k Hk'. unfold kwe'. rewrite kw_get_set. destruct (String.eqb_spec k name); [contradiction|]. apply Hk, Hk'.
        + rewrite E. exists e, o'. reflexivity. }
    destruct (G masks 0%nat r kwe Hlt (fun _ _ => eq_refl) Hr) as (e & o' & E). rewrite E. exists e. reflexivity.
  Qed.
  (** a solver that was allowed no iteration has no final residual *)
  Theorem C181_zero_iterations : forall (t : tuner) ex inj kfold name m masks is_open orders hp kwi kwe (res : Hp -> Rec * info) h,
    usable (tn_par t) is_open -> completes (orders 0%nat) (List.length hp) -> tn_exec t = Some ex -> In name (map fst (f_params ex)) ->
    (forall h d, In h hp -> round_kwds inj name m kwe d -> runs t kwi d h (res h)) -> In h hp -> i_max_iterations (snd (res h)) = 0%nat ->
    cv_compute num_cpus dflt t inj kfold name (m :: masks) is_open orders hp kwi kwe = (inl IndexError, is_open).
  Proof.
    intros t ex inj kf name m masks o orders hp kwi kwe res h Hu Hc Ex Hn Hr Hh H0. unfold cv_compute. rewrite Ex.
    rewrite (proj2 (mem_in name _) Hn). change (negb true) with false. cbv iota.
    assert (Z0 : (tn_verbose t && kf && negb (is_nil hp) && @is_nil arr (m :: masks))%bool = false) by (cbn; apply Bool.andb_false_r).
    rewrite Z0.
    assert (V : verbose_report t hp = None).
    { unfold verbose_report. destruct (tn_verbose t); [|reflexivity]. destruct hp; [destruct Hh|]. cbn. destruct (tn_par t); try reflexivity. destruct Hu. }
    rewrite V. cbn [cv_rounds].
    rewrite (C177_every_mode t o (orders 0%nat) hp kwi _ res); [|exact Hu|exact Hc|congruence|].
    2:{ intros h' Hh'. apply Hr; [exact Hh'|]. apply round_kwds_set. reflexivity. }
    destruct (map_err_fail cv_val (map snd (map res hp)) (snd (res h)) IndexError) as (e' & a & Ha & Ea & ->).
    - apply in_map, in_map, Hh.
    - unfold cv_val. rewrite H0. reflexivity.
    - unfold cv_val in Ea. destruct (Nat.eqb (i_max_iterations a) 0); congruence.
  Qed.
  (** the execution function has to name the mask parameter *)
  Theorem C181_mask_parameter : forall (t : tuner) ex inj kfold name masks is_open orders hp kwi kwe, tn_exec t = Some ex ->
    ~ In name (map fst (f_params ex)) -> cv_compute num_cpus dflt t inj kfold name masks is_open orders hp kwi kwe = (inl ValueError, is_open).
  Proof.
    intros t ex inj kf name masks o orders hp kwi kwe Ex Hn. unfold cv_compute. rewrite Ex.
    destruct (mem name (map fst (f_params ex))) eqn:E; [|reflexivity]. exfalso. apply existsb_exists in E. destruct E as (k & Hk & Ek).
    apply String.eqb_eq in Ek. subst k. contradiction.
  Qed.
  (** REFUTED: an execution function that can be called with the mask is usable.  One that collects keyword arguments can be called
      with it, yet it is refused. *)
  Theorem C181_varkw_refuted : forall (t : tuner) ex p q body inj kfold name masks is_open orders hp kwi kwe, p <> name -> q <> name ->
    tn_exec t = Some ex -> ex = mkFun [(p, Required); (q, VarKw)] body ->
    (forall a m, pycall ex a [(name, inj m)] = body a [(name, inj m)]) /\
    cv_compute num_cpus dflt t inj kfold name masks is_open orders hp kwi kwe = (inl ValueError, is_open).
  Proof.
    intros t ex p q body inj kf name masks o orders hp kwi kwe Hpn Hq Ex E. split.
    - intros a m. subst ex. cbn. destruct (String.eqb_spec p name); [contradiction|]. reflexivity.
    - apply (C181_mask_parameter t ex); [exact Ex|]. subst ex. cbn. intros [H|[H|[]]]; congruence.
  Qed.
End Spec.

Section SpecExamples.
  Open Scope string_scope.
  Let ex : pyfun nat (targ nat nat) (vec * info) :=
    mkFun [("solver", Required); ("b_test_mask", Optional)] (fun a kw => match a with ArgSol s => inr (fun _ => INR s, new_info 5 None) | ArgHp _ => inl KeyError end).
  Let ini : pyfun nat nat nat := mkFun [("h", Required)] (fun h _ => inr (2 * h)%nat).
  Let t (p : par_eval) : tuner nat nat vec nat := mkTuner (Some ini) (Some ex) p false false.
  Example C177_example : runs (t PyExecutor) [] [("b_test_mask", 7%nat)] 3%nat (fun _ => INR 6, new_info 5 None) /\ completes [1; 0]%nat 2 /\
    usable (PyBool true) false /\ raises (mkTuner None (Some ex) PyExecutor false false) [] [] 3%nat KeyError.
  Proof.
    repeat split.
    - exists ex. split; [reflexivity|]. exists 6%nat. split; reflexivity.
    - apply perm_swap.
    - exists ex. split; reflexivity.
  Qed.
  Example C181_example : In "b_test_mask" (map fst (f_params ex)) /\
    forall (inj : arr -> nat) m kwe d h, (forall k, k <> "b_test_mask" -> kw_get k kwe = None) -> round_kwds inj "b_test_mask" m kwe d -> d = [("b_test_mask", inj m)] ->
    runs (t (PyInt 2)) [] d h (fun _ => INR (2 * h), new_info 5 None).
  Proof.
    split; [right; left; reflexivity|]. intros inj m kwe d h _ _ ->. exists ex. split; [reflexivity|]. exists (2 * h)%nat. split; reflexivity.
  Qed.
End SpecExamples.

(** * C177: the pool size *)
Theorem C177_pool_size : forall num_cpus, (1 <= num_cpus)%nat ->
  (1 <= max_threads num_cpus <= Z.of_nat num_cpus)%Z /\ ctor_par num_cpus (PyBool true) = PyInt (max_threads num_cpus) /\ ctor_par num_cpus (PyBool false) = PyInt 0.
Proof. intros n H. split; [apply (max_threads_bounds 1 (le_n 1) n H)|]. split; reflexivity. Qed.

(** * C179: reconstruction errors *)
Section RecErr.
  Context {Hp Sol Val : Type} (npix num_cpus : nat) (dflt : vec * info).
  Hypothesis Hcpu : (1 <= num_cpus)%nat.
  Theorem C179_errors : forall (t : tuner Hp Sol vec Val) gnd is_open order hp kwi kwe (res : Hp -> vec * info),
    usable (tn_par t) is_open -> completes order (List.length hp) -> tn_exec t <> None -> hp <> [] \/ tn_verbose t = false -> tn_plot t = false ->
    (forall h, In h hp -> runs t kwi kwe h (res h)) ->
    compute_reconstruction_error npix num_cpus dflt t gnd is_open order hp kwi kwe =
      (inr (map (fun h => rsum npix (fun i => Rabs (gnd i - fst (res h) i))) hp, map (fun h => rsum npix (fun i => (gnd i - fst (res h) i) ^ 2)) hp), is_open).
  Proof.
    intros t gnd o order hp kwi kwe res Hu Hc Hne Hv Hpl H. unfold compute_reconstruction_error.
    assert (V : verbose_report t hp = None).
    { unfold verbose_report. destruct (tn_verbose t); [|reflexivity]. destruct Hv as [Hv|Hv]; [|discriminate].
      destruct hp; [congruence|]. cbn. destruct (tn_par t); try reflexivity. destruct Hu. }
    rewrite V, (C177_every_mode num_cpus dflt Hcpu t o order hp kwi kwe res Hu Hc Hne H), Hpl, !map_map. apply f_equal2; [|reflexivity]. apply f_equal. apply f_equal2.
    - apply map_ext. intros h. apply rsum_ext. intros i _. apply Rabs_pos_eq, Rabs_pos.
    - apply map_ext. intros h. unfold err_l2.
      rewrite pow2_sqrt by (apply rsum_nonneg; intros; apply pow2_ge_0). apply rsum_ext. intros i _. apply pow2_abs.
  Qed.
  (** the two errors vanish together, exactly when the reconstruction is the ground truth, and bound each other *)
  Theorem C179_meaning : forall gnd rec, 0 <= err_l1 npix gnd rec /\ 0 <= err_l2 npix gnd rec /\
    (err_l1 npix gnd rec = 0 <-> forall i, (i < npix)%nat -> rec i = gnd i) /\ (err_l2 npix gnd rec = 0 <-> forall i, (i < npix)%nat -> rec i = gnd i) /\
    err_l2 npix gnd rec <= err_l1 npix gnd rec ^ 2 <= INR npix * err_l2 npix gnd rec.
  Proof.
    intros gnd rec.
    assert (E1 : err_l1 npix gnd rec = rsum npix (fun i => Rabs (gnd i - rec i))).
    { apply rsum_ext. intros i _. apply Rabs_pos_eq, Rabs_pos. }
    assert (E2 : err_l2 npix gnd rec = rsum npix (fun i => Rabs (gnd i - rec i) ^ 2)).
    { unfold err_l2. apply pow2_sqrt. apply rsum_nonneg; intros; apply pow2_ge_0. }
    rewrite E1, E2. set (a := fun i => Rabs (gnd i - rec i)).
    assert (Ha : forall i, 0 <= a i) by (intros; apply Rabs_pos).
    change (rsum npix (fun i => Rabs (gnd i - rec i))) with (rsum npix a).
    change (rsum npix (fun i => Rabs (gnd i - rec i) ^ 2)) with (rsum npix (fun i => a i ^ 2)).
    assert (Hz : forall i, a i = 0 <-> rec i = gnd i).
    { intros i. unfold a. split; intros H; [|rewrite H; unfold Rminus; rewrite Rplus_opp_r; apply Rabs_R0].
      destruct (Req_dec (gnd i - rec i) 0); [lra|]. apply Rabs_no_R0 in H0. contradiction. }
    split; [apply rsum_nonneg; auto|]. split; [apply rsum_nonneg; intros; apply pow2_ge_0|]. split; [|split; [|split]].
    - split; intros H; [|apply rsum_zero; intros i Hi; apply Hz; auto]. intros i Hi. apply Hz.
      apply (rsum_nonneg_zero npix a); auto.
    - split; intros H; [|apply rsum_zero; intros i Hi; rewrite (proj2 (Hz i) (H i Hi)); ring]. intros i Hi. apply Hz.
      assert (Hs := rsum_nonneg_zero npix (fun i => a i ^ 2) (fun j _ => pow2_ge_0 (a j)) H i Hi). cbv beta in Hs.
      destruct (Req_dec (a i) 0) as [|Hn]; [assumption|]. exfalso. apply (pow_nonzero _ 2 Hn). exact Hs.
    - clear E1 E2. induction npix as [|m IH]; [cbn; lra|]. cbn [rsum]. pose proof (Ha m). assert (0 <= rsum m a) by (apply rsum_nonneg; auto).
      assert (0 <= rsum m a * a m) by (apply Rmult_le_pos; auto). replace ((rsum m a + a m) ^ 2) with (rsum m a ^ 2 + 2 * (rsum m a * a m) + a m ^ 2) by ring. lra.
    - pose proof (rsum_CS npix (fun _ => 1) a) as C.
      assert (A1 : rsum npix (fun i => 1 * a i) = rsum npix a) by (apply rsum_ext; intros; ring).
      assert (A2 : rsum npix (fun i => 1 ^ 2) = INR npix).
      { rewrite (rsum_ext npix (fun _ => 1 ^ 2) (fun _ => 1)) by (intros; ring). rewrite rsum_const. ring. }
      cbv beta in C. rewrite A1 in C. rewrite A2 in C. exact C.
  Qed.
  (** REFUTED: with plot_result the errors are returned.  As soon as the tasks succeed the plot raises an AttributeError. *)
  Theorem C179_plot_refuted : forall (t : tuner Hp Sol vec Val) gnd is_open order hp kwi kwe (res : Hp -> vec * info),
    usable (tn_par t) is_open -> completes order (List.length hp) -> tn_exec t <> None -> hp <> [] \/ tn_verbose t = false -> tn_plot t = true ->
    (forall h, In h hp -> runs t kwi kwe h (res h)) ->
    compute_reconstruction_error npix num_cpus dflt t gnd is_open order hp kwi kwe = (inl AttributeError, is_open).
  Proof.
    intros t gnd o order hp kwi kwe res Hu Hc Hne Hv Hpl H. unfold compute_reconstruction_error.
    assert (V : verbose_report t hp = None).
    { unfold verbose_report. destruct (tn_verbose t); [|reflexivity]. destruct Hv as [Hv|Hv]; [|discriminate].
      destruct hp; [congruence|]. cbn. destruct (tn_par t); try reflexivity. destruct Hu. }
    rewrite V, (C177_every_mode num_cpus dflt Hcpu t o order hp kwi kwe res Hu Hc Hne H), Hpl. reflexivity.
  Qed.
  (** REFUTED: verbosity does not change the outcome.  Without hyper-parameter values the verbose report raises. *)
  Theorem C179_verbose_refuted : forall (t : tuner Hp Sol vec Val) gnd is_open order kwi kwe, tn_exec t <> None -> usable (tn_par t) is_open -> tn_plot t = false ->
    completes order 0 ->
    compute_reconstruction_error npix num_cpus dflt t gnd is_open order [] kwi kwe = (if tn_verbose t then inl IndexError else inr ([], []), is_open).
  Proof.
    intros t gnd o order kwi kwe Hne Hu Hpl Hc. destruct (tn_verbose t) eqn:V.
    - unfold compute_reconstruction_error, verbose_report. rewrite V. reflexivity.
    - rewrite (C179_errors t gnd o order [] kwi kwe (fun _ => dflt)); auto. intros h [].
  Qed.
End RecErr.

(** * C182: averages and standard deviations of the rounds *)
Lemma mean_dev n f : (0 < n)%nat -> rsum n (fun r => f r - mean_of n f) = 0.
Proof.
  intros H. rewrite rsum_minus, rsum_const. unfold mean_of. pose proof (lt_0_INR n H). field. lra.
Qed.
Theorem C182_mean_between : forall n f lo hi, (0 < n)%nat -> (forall r, (r < n)%nat -> lo <= f r <= hi) -> lo <= mean_of n f <= hi.
Proof.
  intros n f lo hi Hn H. unfold mean_of. pose proof (lt_0_INR n Hn) as Hp.
  assert (A : rsum n (fun _ => lo) <= rsum n f) by (apply rsum_le; intros; apply H; auto).
  assert (B : rsum n f <= rsum n (fun _ => hi)) by (apply rsum_le; intros; apply H; auto).
  rewrite rsum_const in A, B. split.
  - apply (Rmult_le_reg_r (INR n)); [lra|]. unfold Rdiv. rewrite Rmult_assoc, Rinv_l by lra. lra.
  - apply (Rmult_le_reg_r (INR n)); [lra|]. unfold Rdiv. rewrite Rmult_assoc, Rinv_l by lra. lra.
Qed.
Theorem C182_std_zero : forall n f, (0 < n)%nat -> 0 <= pstd_of n f /\ (pstd_of n f = 0 <-> forall r s, (r < n)%nat -> (s < n)%nat -> f r = f s).
Proof.
  intros n f Hn. split; [apply sqrt_pos|]. pose proof (lt_0_INR n Hn) as Hp.
  set (g := fun r => (f r - mean_of n f) ^ 2). assert (Hg : forall r, (r < n)%nat -> 0 <= g r) by (intros; apply pow2_ge_0).
  assert (Hm : 0 <= mean_of n g).
  { unfold mean_of. apply Rdiv_le_0_compat; [apply rsum_nonneg; exact Hg|exact Hp]. }
  split; intros H.
  - apply sqrt_eq_0 in H; [|exact Hm]. change (mean_of n g = 0) in H. unfold mean_of in H.
    assert (Hs : rsum n g = 0).
    { replace (rsum n g) with (rsum n g / INR n * INR n) by (field; lra). rewrite H. ring. }
    assert (E : forall r, (r < n)%nat -> f r = mean_of n f).
    { intros r Hr. pose proof (rsum_nonneg_zero n g Hg Hs r Hr) as E. unfold g in E.
      destruct (Req_dec (f r - mean_of n f) 0) as [|Hne]; [lra|]. exfalso. apply (pow_nonzero _ 2 Hne E). }
    intros r s Hr Hs'. rewrite (E r Hr), (E s Hs'). reflexivity.
  - unfold pstd_of. rewrite <- sqrt_0. f_equal. unfold mean_of at 1. rewrite rsum_zero; [unfold Rdiv; ring|].
    intros r Hr. assert (E : mean_of n f = f r).
    { unfold mean_of. rewrite (rsum_ext n f (fun _ => f r)) by (intros s Hs; apply H; auto). rewrite rsum_const. field. lra. }
    rewrite E. ring.
Qed.
(** no round is further than sqrt(n) standard deviations from the average, and the spread bounds the deviation *)
Theorem C182_round_deviation : forall n f r, (r < n)%nat -> Rabs (f r - mean_of n f) <= sqrt (INR n) * pstd_of n f.
Proof.
  intros n f r Hr. assert (Hn : (0 < n)%nat) by lia. pose proof (lt_0_INR n Hn) as Hp. unfold pstd_of.
  assert (Hg : 0 <= rsum n (fun r => (f r - mean_of n f) ^ 2)) by (apply rsum_nonneg; intros; apply pow2_ge_0).
  rewrite <- sqrt_mult_alt by lra. rewrite <- sqrt_Rsqr_abs. apply sqrt_le_1_alt.
  assert (E : INR n * mean_of n (fun r0 => (f r0 - mean_of n f) ^ 2) = rsum n (fun r0 => (f r0 - mean_of n f) ^ 2)) by (unfold mean_of at 1; field; lra).
  rewrite E. pose proof (rsum_term_le n (fun r0 => (f r0 - mean_of n f) ^ 2) r (fun j _ => pow2_ge_0 _) Hr) as T. cbv beta in T. unfold Rsqr. lra.
Qed.
Theorem C182_std_range : forall n f lo hi, (0 < n)%nat -> (forall r, (r < n)%nat -> lo <= f r <= hi) -> pstd_of n f <= (hi - lo) / 2.
Proof.
  intros n f lo hi Hn H. pose proof (lt_0_INR n Hn) as Hp. pose proof (C182_mean_between n f lo hi Hn H) as Hm. set (m := mean_of n f) in *.
  unfold pstd_of. fold m. rewrite <- (sqrt_Rsqr ((hi - lo) / 2)) by lra. apply sqrt_le_1_alt.
  assert (B : rsum n (fun r => (f r - m) ^ 2) <= rsum n (fun r => (hi + lo - 2 * m) * (f r - m) + (hi - m) * (m - lo))).
  { apply rsum_le. intros r Hr. specialize (H r Hr). assert (P : 0 <= (hi - f r) * (f r - lo)) by (apply Rmult_le_pos; lra).
    replace ((f r - m) ^ 2) with ((hi + lo - 2 * m) * (f r - m) + (hi - m) * (m - lo) - (hi - f r) * (f r - lo)) by ring. lra. }
  rewrite rsum_plus, rsum_scal, rsum_const in B. unfold m in B at 3. rewrite (mean_dev n f Hn) in B. fold m in B.
  unfold mean_of. apply (Rmult_le_reg_r (INR n)); [lra|]. unfold Rdiv at 1. rewrite Rmult_assoc, Rinv_l, Rmult_1_r by lra.
  apply Rle_trans with (INR n * ((hi - m) * (m - lo))); [lra|]. rewrite (Rmult_comm _ (INR n)). apply Rmult_le_compat_l; [lra|].
  unfold Rsqr. assert (Q : 0 <= (hi + lo - 2 * m) ^ 2) by apply pow2_ge_0.
  replace ((hi - lo) / 2 * ((hi - lo) / 2)) with ((hi - m) * (m - lo) + (hi + lo - 2 * m) ^ 2 / 4) by field. lra.
Qed.
Lemma lsum_perm {A} (l l' : list A) (g : A -> R) : Permutation l l' -> lsum l g = lsum l' g.
Proof. intros H. unfold lsum. induction H; cbn [fold_right]; try lra. Qed.
(** the order of the rounds does not matter *)
Theorem C182_round_order : forall (f f' : list (list R)) j, Permutation f f' -> cv_mean f j = cv_mean f' j /\ cv_std f j = cv_std f' j.
Proof.
  pose proof (@lsum_perm (list R)) as G.
  intros f f' j H. assert (M : cv_mean f j = cv_mean f' j).
  { unfold cv_mean. rewrite (G f f' _ H), (Permutation_length H). reflexivity. }
  split; [exact M|]. unfold cv_std. rewrite M, (G f f' _ H), (Permutation_length H). reflexivity.
Qed.
Example C182_example : mean_of 2 (fun r => if Nat.eqb r 0 then 1 else 3) = 2 /\ pstd_of 2 (fun r => if Nat.eqb r 0 then 1 else 3) = 1.
Proof.
  assert (M : mean_of 2 (fun r => if Nat.eqb r 0 then 1 else 3) = 2) by (unfold mean_of; cbn; field).
  split; [exact M|]. unfold pstd_of. rewrite M. unfold mean_of. cbn. replace ((0 + _ + _) / _) with 1 by field. apply sqrt_1.
Qed.

(** * C183: the threads of a cross-validation, and its masks *)
Definition round_mask_inv (s : cvstate) : Prop :=
  cs_dict s = Some (cs_round s) /\ (forall r i, In (r, i) (cs_pending s) -> r = cs_round s) /\ (forall r i m, In (r, i, m) (cs_log s) -> m = Some r).
Theorem C183_own_mask : forall rounds nhp s, cv_reach rounds nhp s -> forall r i m, In (r, i, m) (cs_log s) -> m = Some r.
Proof.
  intros rounds nhp s H. assert (I : round_mask_inv s); [|apply I].
  induction H as [|s s' Hr IH Hs].
  - repeat split; cbn; intros; contradiction.
  - destruct IH as (D & P & L). destruct Hs as [s H1 H2|s l1 p l2 Hp|s H1 H2 H3]; unfold round_mask_inv; cbn [cs_round cs_submitted cs_dict cs_pending cs_log].
    + repeat split; [exact D| |exact L]. intros r i Hi. apply in_app_or in Hi. destruct Hi as [Hi|[Hi|[]]]; [eapply P; eauto|congruence].
    + repeat split; [exact D| |].
      * intros r i Hi. apply (P r i). rewrite Hp. apply in_app_or in Hi. apply in_or_app. cbn. tauto.
      * intros r i m Hi. apply in_app_or in Hi. destruct Hi as [Hi|[Hi|[]]]; [eapply L; eauto|].
        injection Hi as -> <-. rewrite D. f_equal. symmetry. apply (P r i). rewrite Hp. apply in_or_app. cbn. auto.
    + repeat split; [|exact L]. intros r i [].
Qed.
(** what has been run or is pending: all tasks of the finished rounds and the submitted ones of the current round, each once *)
Definition due (s : cvstate) (nhp : nat) : list (nat * nat) :=
  flat_map (fun r => map (pair r) (seq 0 nhp)) (seq 0 (cs_round s)) ++ map (pair (cs_round s)) (seq 0 (cs_submitted s)).
Lemma due_inv rounds nhp s : cv_reach rounds nhp s ->
  Permutation (map fst (cs_log s) ++ cs_pending s) (due s nhp) /\ (cs_submitted s <= nhp)%nat /\ (cs_round s <= rounds)%nat /\ (cs_round s = rounds -> cs_submitted s = 0%nat).
Proof.
  intros H. induction H as [|s s' Hr IH Hs].
  - cbn. repeat split; try lia. constructor.
  - destruct IH as (P & S1 & R1 & R2). destruct Hs as [s H1 H2|s l1 p l2 Hp|s H1 H2 H3]; cbn [cs_round cs_submitted cs_dict cs_pending cs_log due].
    + repeat split; try lia. unfold due. cbn [cs_round cs_submitted]. rewrite seq_S, map_app, !app_assoc. apply Permutation_app_tail. exact P.
    + split; [|repeat split; try lia; auto]. unfold due. cbn [cs_round cs_submitted]. rewrite <- P, Hp, map_app. cbn [map fst].
      rewrite <- app_assoc. apply Permutation_app_head. cbn. apply Permutation_middle.
    + repeat split; try lia. unfold due. cbn [cs_round cs_submitted]. rewrite seq_S, flat_map_app. cbn [flat_map seq map Nat.add]. rewrite !app_nil_r.
      revert P. rewrite H3, app_nil_r. unfold due. rewrite H2. auto.
Qed.
(** when the rounds are over every task of every round has run exactly once *)
Theorem C183_all_tasks_once : forall rounds nhp s, cv_reach rounds nhp s -> cs_round s = rounds -> cs_pending s = [] ->
  NoDup (map fst (cs_log s)) /\ forall r i, In (r, i) (map fst (cs_log s)) <-> (r < rounds)%nat /\ (i < nhp)%nat.
Proof.
  intros rounds nhp s H Hr Hp. destruct (due_inv rounds nhp s H) as (P & S1 & _ & R2). specialize (R2 Hr).
  rewrite Hp, app_nil_r in P. unfold due in P. rewrite R2, Hr in P. cbn [seq map] in P. rewrite app_nil_r in P. split.
  - apply (Permutation_NoDup (Permutation_sym P)). clear. generalize 0%nat at 2 as a. induction rounds as [|k IH]; intros a; cbn [seq flat_map]; [constructor|].
    assert (N1 : NoDup (map (pair a) (seq 0 nhp))).
    { apply FinFun.Injective_map_NoDup; [intros x y E; congruence|apply seq_NoDup]. }
    set (X := flat_map (fun r : nat => map (pair r) (seq 0 nhp)) (seq (S a) k)).
    assert (HX : NoDup X) by apply IH. assert (HI : forall i, ~ In (a, i) X).
    { intros i Hi. apply in_flat_map in Hi. destruct Hi as (r & Hr & Hi). apply in_seq in Hr. apply in_map_iff in Hi.
      destruct Hi as (i' & E & _). injection E as E1 _. lia. }
    clearbody X. clear IH. induction (seq 0 nhp) as [|b l IHl]; cbn; [exact HX|]. cbn in N1.
    inversion N1 as [|? ? Hb Hl]; subst. constructor; [|apply IHl; exact Hl].
    intros Hi. apply in_app_or in Hi. destruct Hi as [Hi|Hi]; [contradiction|exact (HI b Hi)].
  - intros r i. split.
    + intros Hi. apply (Permutation_in _ P) in Hi. apply in_flat_map in Hi. destruct Hi as (r' & Hr' & Hi). apply in_seq in Hr'.
      apply in_map_iff in Hi. destruct Hi as (i' & E & Hi'). apply in_seq in Hi'. injection E as -> ->. lia.
    + intros [H1 H2]. apply (Permutation_in _ (Permutation_sym P)). apply in_flat_map. exists r. split; [apply in_seq; lia|]. apply in_map. apply in_seq. lia.
Qed.
(** the rounds never get stuck, and cannot go on for ever *)
Theorem C183_progress : forall rounds nhp s, cv_reach rounds nhp s -> (cs_round s = rounds /\ cs_pending s = []) \/ exists s', cv_step rounds nhp s s'.
Proof.
  intros rounds nhp s H. destruct (due_inv rounds nhp s H) as (_ & S1 & R1 & R2).
  destruct (cs_pending s) as [|p l] eqn:E.
  - destruct (Nat.eq_dec (cs_round s) rounds) as [|Hne]; [left; auto|]. right.
    destruct (le_lt_dec nhp (cs_submitted s)) as [Hl|Hl].
    + eexists. apply cv_next; auto; lia.
    + eexists. apply cv_submit; auto; lia.
  - right. eexists. apply (cv_worker rounds nhp s [] p l). exact E.
Qed.
Theorem C183_terminates : forall rounds nhp s s', cv_reach rounds nhp s -> cv_step rounds nhp s s' ->
  (3 * (nhp + 1) * (rounds - cs_round s') + (3 * (nhp - cs_submitted s') + List.length (cs_pending s')) <
   3 * (nhp + 1) * (rounds - cs_round s) + (3 * (nhp - cs_submitted s) + List.length (cs_pending s)))%nat.
Proof.
  intros rounds nhp s s' H Hs. destruct (due_inv rounds nhp s H) as (_ & S1 & R1 & _).
  destruct Hs as [s H1 H2|s l1 p l2 Hp|s H1 H2 H3]; cbn [cs_round cs_submitted cs_pending].
  - rewrite app_length. cbn [List.length]. lia.
  - rewrite Hp, !app_length. cbn [List.length]. lia.
  - rewrite H2, H3. cbn [List.length]. replace (rounds - cs_round s)%nat with (S (rounds - S (cs_round s))) by lia. nia.
Qed.
(** the masks: K-fold leaves every pixel out in exactly one round; a random mask leaves out the requested fraction *)
Theorem C183_masks : forall shape frac n perms, (0 < n)%nat -> (forall k, Permutation (perms k) (seq 0 (size shape))) ->
  let masks := cv_masks shape frac n perms in List.length masks = n /\
  match frac with
  | None => forall l, inb shape l -> exists i, (i < n)%nat /\ nth i masks (fun _ => 0) l = 1 /\ forall j, (j < n)%nat -> j <> i -> nth j masks (fun _ => 0) l = 0
  | Some f => 0 <= f <= 1 -> forall i, (i < n)%nat -> is_binary (nth i masks (fun _ => 0)) /\ bsum shape (nth i masks (fun _ => 0)) = IZR (rceil (INR (size shape) * f))
  end.
Proof.
  intros shape frac n perms Hn Hp masks. unfold masks, cv_masks. destruct frac as [f|].
  - rewrite map_length, seq_length. split; [reflexivity|]. intros Hf i Hi.
    rewrite (nth_indep _ _ (create_random_test_mask shape f (perms 0%nat))) by (rewrite map_length, seq_length; lia).
    rewrite (map_nth (fun k => create_random_test_mask shape f (perms k)) (seq 0 n) 0%nat i), seq_nth by lia. apply C42_random_mask; auto.
  - destruct (C43_k_fold_partition shape n (perms 0%nat) Hn (Hp 0%nat)) as (L & _ & Q & _). split; [exact L|exact Q].
Qed.

(** * C184: performance measurements, for any clock that does not run backwards *)
Definition clock_ok (k : task_clock) : Prop := tk_0 k <= tk_1 k <= tk_2 k.
(** tasks that run one after the other between the times [a] and [b] *)
Fixpoint one_after_other (a b : R) (ks : list task_clock) : Prop :=
  match ks with [] => a <= b | k :: ks' => a <= tk_0 k /\ clock_ok k /\ one_after_other (tk_2 k) b ks' end.
Lemma oao_sum a b ks : one_after_other a b ks -> 0 <= lsum (map task_perf ks) t_total <= b - a.
Proof.
  revert a. induction ks as [|k ks IH]; intros a H; [cbn in *; lra|]. cbn in H. destruct H as (H1 & H2 & H3). specialize (IH _ H3). unfold clock_ok in H2.
  change (lsum (map task_perf (k :: ks)) t_total) with (tk_2 k - tk_0 k + lsum (map task_perf ks) t_total). lra.
Qed.
Theorem C184_serial : forall c0 c1 c2 ks, c0 <= c1 -> one_after_other c1 c2 ks -> let b := batch_perf c0 c1 c2 ks in
  b_total b = b_init b + b_proc b /\ 0 <= b_init b /\ List.length (b_tasks b) = List.length ks /\
  0 <= lsum (b_tasks b) t_total <= b_proc b /\
  Forall (fun p => 0 <= t_init p /\ 0 <= t_exec p /\ t_total p = t_init p + t_exec p) (b_tasks b).
Proof.
  intros c0 c1 c2 ks H01 H b. unfold b, batch_perf. cbn [b_total b_init b_proc b_tasks]. repeat split; try lra.
  - apply map_length.
  - apply (oao_sum c1 c2 ks H).
  - apply (oao_sum c1 c2 ks H).
  - clear -H. revert c1 H. induction ks as [|k ks IH]; intros a H; cbn in *; constructor.
    + cbn. unfold clock_ok in H. lra.
    + eapply IH. apply H.
Qed.
(** [W] workers, each running its share of the tasks one after the other between the start and the end of the batch *)
Theorem C184_parallel : forall c0 c1 c2 (shares : list (list task_clock)) ks, c0 <= c1 <= c2 -> Forall (one_after_other c0 c2) shares -> Permutation ks (concat shares) ->
  let b := batch_perf c0 c1 c2 ks in b_total b = b_init b + b_proc b /\
  0 <= lsum (b_tasks b) t_total <= INR (List.length shares) * b_total b /\ Forall (fun p => 0 <= t_total p <= b_total b) (b_tasks b).
Proof.
  intros c0 c1 c2 sh ks Hc H P b. unfold b, batch_perf. cbn [b_total b_init b_proc b_tasks].
  pose proof (@lsum_perm pm_task) as G.
  split; [ring|]. split.
  - rewrite (G _ _ t_total (Permutation_map task_perf P)). clear P ks b. induction H as [|s sh Hs H IH]; cbn [concat List.length].
    + cbn. lra.
    + rewrite map_app, lsum_app, S_INR. pose proof (oao_sum _ _ _ Hs). lra.
  - apply Forall_map. apply (Permutation_Forall (Permutation_sym P)). apply Forall_concat. eapply Forall_impl; [|exact H].
    intros s Hs. clear -Hs. cbn [task_perf t_total].
    assert (Q : forall a, c0 <= a -> one_after_other a c2 s -> Forall (fun k => 0 <= tk_2 k - tk_0 k <= c2 - c0) s).
    { clear Hs. induction s as [|k s IH]; intros a Ha Hs; [constructor|]. cbn in Hs. destruct Hs as (H1 & H2 & H3).
      pose proof (oao_sum _ _ _ H3) as S. unfold clock_ok in H2. constructor; [lra|]. apply (IH (tk_2 k)); [lra|exact H3]. }
    apply (Q c0); [lra|exact Hs].
Qed.
(** REFUTED: the processing time of the batch covers its tasks.  Tasks start while the batch is still submitting, i.e. before the
    processing time starts. *)
Theorem C184_processing_time_refuted : exists c0 c1 c2 k, c0 <= c1 <= c2 /\ one_after_other c0 c2 [k] /\
  let b := batch_perf c0 c1 c2 [k] in b_proc b < lsum (b_tasks b) t_total.
Proof. exists 0, 1, 2, (mkTC 0 0 2). cbn. unfold clock_ok. cbn. lra. Qed.
Example C184_example : one_after_other 1 10 [mkTC 1 2 4; mkTC 5 5 9].
Proof. cbn. unfold clock_ok. cbn. lra. Qed.
