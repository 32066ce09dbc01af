(** Properties of the construction of ProjectorUncorrected, of its point-spread functions and of its context manager
    (model: ProjCtorModel.v). *)
From Coq Require Import Reals Lra Lia List ZArith Bool String.
Import ListNotations.
From Verif Require Import Sums PyErr Arrays Rounding GeometryModel BackendsModel BackendsProps BackendsGeomProps SkimageModel ProjCtorModel SkimageProps.
Open Scope R_scope.

(** * C212: with-blocks *)
(** a projector whose backend has just been initialised, and nothing native alive *)
Definition built (n : nat) (ind : bool) : st := fst (initialize_geometry n ind false false (native0, bk0)).
Definition nothing_alive (s : st) : Prop := n_proj (fst s) = [] /\ n_data (fst s) = [] /\ n_algo (fst s) = [] /\ n_bad (fst s) = false.

Lemma NL_built n ind : NL (built n ind).
Proof. apply (NL_op (OInit n ind false false)); [apply NL0|reflexivity]. Qed.

(** a successful make_ready is the same whatever may have failed *)
Lemma create_nf fail d s s' h : create_projector fail d s = (s', inr h) -> create_projector no_fail d s = (s', inr h).
Proof. unfold create_projector. cbn [no_fail]. destruct (fail (n_call (fst s))); [discriminate|exact (fun E => E)]. Qed.
Lemma create_list_success fail ds : forall s s' hs, create_list fail ds s = (s', inr hs) -> create_list no_fail ds s = (s', inr hs).
Proof.
  induction ds as [|d ds IH]; intros s s' hs; [exact (fun E => E)|]. cbn [create_list]. unfold bind.
  destruct (create_projector fail d s) as [s1 r1] eqn:E1. destruct r1 as [e|h]; [discriminate|]. rewrite (create_nf _ _ _ _ _ E1).
  destruct (create_list fail ds s1) as [s2 r2] eqn:E2. destruct r2 as [e|t]; [discriminate|]. rewrite (IH _ _ _ E2). exact (fun E => E).
Qed.
Lemma ready_success fail s s' : make_ready fail s = (s', inr tt) -> make_ready no_fail s = (s', inr tt).
Proof.
  unfold make_ready, bind, get_bk. destruct (k_ready (snd s)); [exact (fun E => E)|]. destruct (negb (k_geo (snd s))); [exact (fun E => E)|].
  destruct (k_ind (snd s)).
  - destruct (k_gind (snd s)) as [n|]; [|exact (fun E => E)].
    destruct (create_list fail (map DOne (seq 0 n)) s) as [s1 r1] eqn:E1. destruct r1 as [e|l]; [discriminate|]. rewrite (create_list_success _ _ _ _ _ E1).
    destruct (set_pid l s1) as [s2 r2]. destruct r2 as [e|[]]; [exact (fun E => E)|]. destruct (negb (k_gall (snd s2))); [exact (fun E => E)|].
    destruct (create_projector fail DAll s2) as [s3 r3] eqn:E3. destruct r3 as [e|h]; [discriminate|]. rewrite (create_nf _ _ _ _ _ E3). exact (fun E => E).
  - unfold ret. destruct (negb (k_gall (snd s))); [exact (fun E => E)|].
    destruct (create_projector fail DAll s) as [s3 r3] eqn:E3. destruct r3 as [e|h]; [discriminate|]. rewrite (create_nf _ _ _ _ _ E3). exact (fun E => E).
Qed.

(** calls on a ready backend keep its handles, whatever fails *)
Lemma call_ready fail c s s' r : Inv s -> k_ready (snd s) = true -> do_call fail c s = (s', r) ->
  Inv s' /\ snd s' = snd s /\ n_proj (fst s') = n_proj (fst s) /\ n_data (fst s') = n_data (fst s) /\ n_algo (fst s') = n_algo (fst s).
Proof.
  intros I Hr E. destruct c as [direct ok i]. unfold do_call in E. destruct direct.
  - destruct (project_direct_spec fail _ _ s s' r I E) as (I' & D & A & s1 & E1 & P & K & _).
    destruct (ready_spec fail s s1 _ I E1) as (_ & _ & _ & _ & _ & _ & _ & _ & _ & _ & Hs & _). destruct (Hs Hr) as [-> _]. auto.
  - destruct (project_spec fail _ _ s s' r I E) as (I' & D & A & _ & _ & s1 & E1 & P & K & _).
    destruct (ready_spec fail s s1 _ I E1) as (_ & _ & _ & _ & _ & _ & _ & _ & _ & _ & Hs & _). destruct (Hs Hr) as [-> _]. auto.
Qed.
Lemma calls_ready fail cs : forall s s' r, Inv s -> k_ready (snd s) = true -> exec fail (calls cs) s = (s', r) ->
  Inv s' /\ snd s' = snd s /\ n_proj (fst s') = n_proj (fst s) /\ n_data (fst s') = n_data (fst s) /\ n_algo (fst s') = n_algo (fst s).
Proof.
  induction cs as [|c cs IH]; intros s s' r I Hr E.
  - injection E as <- <-. auto.
  - cbn [calls exec] in E. unfold bind in E. destruct (do_call fail c s) as [s1 r1] eqn:E1.
    destruct (call_ready fail c s s1 r1 I Hr E1) as (I1 & K1 & P1 & D1 & A1). destruct r1 as [e|[]].
    + injection E as <- <-. auto.
    + destruct (IH s1 s' r I1 ltac:(rewrite K1; exact Hr) E) as (I2 & K2 & P2 & D2 & A2). rewrite K2, P2, D2, A2. auto.
Qed.
Lemma NL_alive s : NL s -> held (snd s) = [] -> n_proj (fst s) = [].
Proof. intros (_ & Hl & _) H. apply map_fst_nil. intros h Hi. apply Hl in Hi. rewrite H in Hi. destruct Hi. Qed.
Lemma NL_keep s s' : NL s -> Inv s' -> n_proj (fst s') = n_proj (fst s) -> snd s' = snd s -> NL s'.
Proof. intros Hn I' P K. exact (NL_same s s' Hn I' P K). Qed.

(** the block has been entered: whatever its calls do and whichever of their native calls fail, nothing is alive after it, and the
    outcome of the block (an exception included) is the outcome of the with-statement *)
Theorem C212_with_frees : forall fail n ind cs s2 s3 r,
  make_ready fail (built n ind) = (s2, inr tt) ->
  exec fail (PWith (calls cs) PSkip) (built n ind) = (s3, r) ->
  nothing_alive s3 /\ r = snd (exec fail (calls cs) s2).
Proof.
  intros fail n ind cs s2 s3 r H2 E. pose proof (NL_built n ind) as Hb.
  pose proof (NL_ready _ _ _ Hb (ready_success _ _ _ H2)) as Hn2.
  destruct (ready_spec fail _ _ _ (proj1 Hb) H2) as (I2 & D2 & A2 & _ & _ & _ & _ & _ & _ & Hr2 & _). specialize (Hr2 eq_refl).
  cbn [exec] in E. unfold bind, try_finally in E. rewrite H2 in E.
  destruct (exec fail (calls cs) s2) as [s4 r4] eqn:E4. destruct (calls_ready fail cs s2 s4 r4 I2 Hr2 E4) as (I4 & K4 & P4 & D4 & A4).
  pose proof (NL_keep s2 s4 Hn2 I4 P4 K4) as Hn4.
  destruct (dispose s4) as [s5 r5] eqn:E5. pose proof (NL_dispose _ _ _ Hn4 E5) as Hn5.
  destruct (dispose_spec s4 s5 r5 I4 E5) as [(Hp & _)|(-> & _ & B5 & D5 & A5 & _ & _ & K5)].
  { exfalso. apply (proj1 (i_rd _ I4 ltac:(rewrite K4; exact Hr2))). exact Hp. }
  assert (X : nothing_alive s5).
  { split; [apply NL_alive; [exact Hn5|rewrite K5; reflexivity]|]. rewrite D5, A5, D4, A4, D2, A2. auto. }
  destruct r4 as [e|[]]; cbn [ret] in E; injection E as <- <-; auto.
Qed.

(** no native failure: any nesting and sequence of with-blocks and calls on one projector *)
Fixpoint exec_NL (p : prog) : forall s s' r, NL s -> exec no_fail p s = (s', r) -> NL s'.
Proof.
  destruct p as [|c p|b p]; intros s s' r Hn E.
  - injection E as <- <-. exact Hn.
  - cbn [exec] in E. unfold bind in E. destruct (do_call no_fail c s) as [s1 r1] eqn:E1.
    assert (H1 : NL s1).
    { destruct c as [direct ok i]. unfold do_call in E1. pose proof (NL_op (if direct then OProjectDirect ok i else OProject ok i) s Hn) as X.
      destruct direct; cbn [do_op] in X; rewrite E1 in X; exact (X Logic.I). }
    destruct r1 as [e|[]]; [injection E as <- <-; exact H1|]. exact (exec_NL p _ _ _ H1 E).
  - cbn [exec] in E. unfold bind, try_finally in E. destruct (make_ready no_fail s) as [s1 r1] eqn:E1. pose proof (NL_ready _ _ _ Hn E1) as H1.
    destruct r1 as [e|[]]; [injection E as <- <-; exact H1|].
    destruct (exec no_fail b s1) as [s2 r2] eqn:E2. pose proof (exec_NL b _ _ _ H1 E2) as H2.
    destruct (dispose s2) as [s3 r3] eqn:E3. pose proof (NL_dispose _ _ _ H2 E3) as H3.
    destruct r3 as [e|[]]; [injection E as <- <-; exact H3|].
    destruct r2 as [e|[]]; [injection E as <- <-; exact H3|]. exact (exec_NL p _ _ _ H3 E).
Qed.
Lemma dispose_alive s s' r : NL s -> dispose s = (s', r) -> held (snd s') = [] /\ NL s'.
Proof.
  intros Hn E. split; [|exact (NL_dispose _ _ _ Hn E)]. destruct (dispose_spec s s' r (proj1 Hn) E) as [(Hp & -> & _)|(_ & _ & _ & _ & _ & _ & _ & K)].
  - unfold held. rewrite Hp. reflexivity.
  - rewrite K. reflexivity.
Qed.
(** the geometry stays set along any such program *)
Fixpoint exec_set (p : prog) : forall a a' q, NL a -> k_geo (snd a) = true -> k_gall (snd a) = true -> (k_ind (snd a) = true -> k_gind (snd a) <> None) ->
  exec no_fail p a = (a', q) -> k_geo (snd a') = true /\ k_gall (snd a') = true /\ (k_ind (snd a') = true -> k_gind (snd a') <> None).
Proof.
  intros a a' q Hn G1 G2 G3 E. destruct p as [|c p|b p].
        - injection E as <- <-. auto.
        - cbn [exec] in E. unfold bind in E. destruct (do_call no_fail c a) as [a1 q1] eqn:Ec.
          assert (H1 : NL a1 /\ k_geo (snd a1) = true /\ k_gall (snd a1) = true /\ (k_ind (snd a1) = true -> k_gind (snd a1) <> None)).
          { split.
            - destruct c as [direct ok i]. unfold do_call in Ec. pose proof (NL_op (if direct then OProjectDirect ok i else OProject ok i) a Hn) as X.
              destruct direct; cbn [do_op] in X; rewrite Ec in X; exact (X Logic.I).
            - destruct c as [direct ok i]. unfold do_call in Ec.
              assert (Y : exists t1 z, make_ready no_fail a = (t1, z) /\ snd a1 = snd t1).
              { destruct direct.
                - destruct (project_direct_spec no_fail _ _ a a1 q1 (proj1 Hn) Ec) as (_ & _ & _ & t1 & Et & _ & K & _). eauto.
                - destruct (project_spec no_fail _ _ a a1 q1 (proj1 Hn) Ec) as (_ & _ & _ & _ & _ & t1 & Et & _ & K & _). eauto. }
              destruct Y as (t1 & z & Et & K). destruct (ready_spec no_fail a t1 z (proj1 Hn) Et) as (_ & _ & _ & _ & Q1 & Q2 & Q3 & Q4 & _).
              rewrite K, Q1, Q2, Q3, Q4. auto. }
          destruct H1 as (Hn1 & X1 & X2 & X3). destruct q1 as [e|[]]; [injection E as <- <-; auto|]. exact (exec_set p _ _ _ Hn1 X1 X2 X3 E).
        - cbn [exec] in E. unfold bind, try_finally in E. destruct (make_ready no_fail a) as [a1 q1] eqn:Ea. pose proof (NL_ready _ _ _ Hn Ea) as Hn1.
          destruct (ready_spec no_fail a a1 q1 (proj1 Hn) Ea) as (_ & _ & _ & _ & Q1 & Q2 & Q3 & Q4 & _).
          destruct q1 as [e|[]]; [injection E as <- <-; rewrite Q1, Q2, Q3, Q4; auto|].
          destruct (exec no_fail b a1) as [a2 q2] eqn:Eb.
          destruct (exec_set b a1 a2 q2 Hn1 ltac:(rewrite Q3; auto) ltac:(rewrite Q4; auto) ltac:(rewrite Q1, Q2; auto) Eb) as (X1 & X2 & X3).
          pose proof (exec_NL b _ _ _ Hn1 Eb) as Hn2.
          destruct (dispose a2) as [a3 q3] eqn:Ed. pose proof (NL_dispose _ _ _ Hn2 Ed) as Hn3.
          assert (X : k_geo (snd a3) = true /\ k_gall (snd a3) = true /\ (k_ind (snd a3) = true -> k_gind (snd a3) <> None)).
          { destruct (dispose_spec a2 a3 q3 (proj1 Hn2) Ed) as [(_ & -> & _)|(_ & _ & _ & _ & _ & _ & _ & K)]; [auto|]. rewrite K. cbn. auto. }
          destruct X as (Y1 & Y2 & Y3). destruct q3 as [e|[]]; [injection E as <- <-; auto|]. destruct q2 as [e|[]]; [injection E as <- <-; auto|].
          exact (exec_set p _ _ _ Hn3 Y1 Y2 Y3 E).
Qed.
(** the projector can be entered (again) after any use, if no native call fails *)
Theorem C212_reusable : forall n ind before, exists t, make_ready no_fail (fst (exec no_fail before (built n ind))) = (t, inr tt).
Proof.
  intros n ind before. destruct (exec no_fail before (built n ind)) as [s1 r1] eqn:E1. cbn [fst]. pose proof (exec_NL before _ _ _ (NL_built n ind) E1) as H1.
  destruct (exec_set before (built n ind) s1 r1 (NL_built n ind)) as (X1 & X2 & X3); try assumption; try (destruct ind; reflexivity).
  { destruct ind; [intros _; discriminate|discriminate]. }
  destruct (make_ready no_fail s1) as [t r2] eqn:E2.
  destruct (ready_spec no_fail s1 t r2 (proj1 H1) E2) as (_ & _ & _ & _ & _ & _ & _ & _ & _ & _ & _ & _ & Z).
  exists t. f_equal. apply Z; auto. apply (i_geo _ (proj1 H1) X1).
Qed.
(** ... and nothing is alive after any block, nested blocks and blocks within earlier uses included *)
Theorem C212_nested : forall n ind before block, let s := fst (exec no_fail before (built n ind)) in
  n_proj (fst (fst (exec no_fail (PWith block PSkip) s))) = [].
Proof.
  intros n ind before block s. destruct (C212_reusable n ind before) as (t & Q). fold s in Q.
  assert (H1 : NL s) by (unfold s; destruct (exec no_fail before (built n ind)) as [s1 r1] eqn:E1; exact (exec_NL before _ _ _ (NL_built n ind) E1)).
  cbn [exec]. unfold bind, try_finally. rewrite Q.
  pose proof (NL_ready _ _ _ H1 Q) as H2. destruct (exec no_fail block t) as [s3 r3] eqn:E3. pose proof (exec_NL block _ _ _ H2 E3) as H3.
  destruct (dispose s3) as [s4 r4] eqn:E4. destruct (dispose_alive _ _ _ H3 E4) as [Hh H4]. pose proof (NL_alive _ H4 Hh) as X.
  destruct r4 as [e|[]]; [exact X|]. destruct r3 as [e|[]]; exact X.
Qed.
(** if making the projectors fails, __enter__ raises and __exit__ is never called: those already made stay alive *)
Theorem C212_enter_failure_refuted : exists fail s r, exec fail (PWith PSkip PSkip) (built 3 true) = (s, inl r) /\ List.length (n_proj (fst s)) = 2%nat /\ held (snd s) = [].
Proof. exists (fun k => Nat.eqb k 2). eexists. eexists. split; [vm_compute; reflexivity|]. split; reflexivity. Qed.
(** a concrete block: two projections, the second of which raises; three handles made, all deleted *)
Theorem C212_example : forall s r, exec no_fail (PWith (calls [Call false true None; Call false false (Some 0%Z)]) PSkip) (built 2 true) = (s, r) ->
  r = inl (Py ValueError) /\ nothing_alive s /\ n_runs (fst s) = [(DAll, DAll)].
Proof. intros s r E. vm_compute in E. injection E as <- <-. repeat split. Qed.

(** * C213: what can be constructed *)
(** the backend that a given argument stands for *)
Inductive backend_for (e : env) : backend_arg -> bkind -> Prop :=
| bf_astra : astra_ok e = true -> backend_for e (BName "astra") (if astra_direct e then BkDirect else BkAstra)
| bf_fallback : astra_ok e = false -> backend_for e (BName "astra") BkSkimage
| bf_skimage : backend_for e (BName "skimage") BkSkimage
| bf_object k : (is_astra k = true -> astra_ok e = true) -> backend_for e (BObj k) k.
(** what a backend can do *)
Definition supports (k : bkind) (g : vol_geom) (shift : option (list R)) (pg : option prj_geom) : Prop :=
  k = BkSkimage -> is_3D g = false /\ shift = None /\ pg = None.
Lemma choose_spec e b : match fallback e b with inl x => x = ValueError /\ (forall k, ~ backend_for e b k)
  | inr b' => match choose e b' with inl x => x = ValueError /\ (forall k, ~ backend_for e b k) | inr k => forall k', backend_for e b k' <-> k' = k end end.
Proof.
  unfold fallback. destruct (astra_ok e) eqn:Ea.
  - destruct b as [s|k]; cbn [choose].
    + destruct (String.eqb_spec s "astra") as [->|N1].
      * intros k'. split; [intros H; inversion H; congruence|intros ->; now apply bf_astra].
      * destruct (String.eqb_spec s "skimage") as [->|N2]; [intros k'; split; [intros H; inversion H; congruence|intros ->; apply bf_skimage]|].
        split; [reflexivity|]. intros k H. inversion H; congruence.
    + intros k'. split; [intros H; inversion H; congruence|intros ->; apply bf_object; auto].
  - destruct b as [s|k].
    + destruct (String.eqb_spec s "astra") as [->|N1]; cbn [choose].
      * intros k'. split; [intros H; inversion H; congruence|intros ->; now apply bf_fallback].
      * destruct (String.eqb_spec s "astra"); [congruence|]. destruct (String.eqb_spec s "skimage") as [->|N2].
        -- intros k'; split; [intros H; inversion H; congruence|intros ->; apply bf_skimage].
        -- split; [reflexivity|]. intros k H. inversion H; congruence.
    + destruct (is_astra k) eqn:Ek; cbn [choose].
      * split; [reflexivity|]. intros k' H. inversion H as [| | |k0 Hk]; subst. specialize (Hk Ek). congruence.
      * intros k'. split; [intros H; inversion H; congruence|intros ->; apply bf_object; congruence].
Qed.
(** without a PSF: exactly the square 2-D or 3-D volumes on a backend that supports what is asked; everything else is a ValueError *)
Theorem C213_accepted : forall e g angles shift pg b k,
  (exists p, construct e g angles shift pg None b = inr p /\ p_kind p = k) <->
  (List.length (vg_xyz g) = 2%nat \/ List.length (vg_xyz g) = 3%nat) /\ nth 0 (vg_xyz g) 0%nat = nth 1 (vg_xyz g) 0%nat /\ backend_for e b k /\ supports k g shift pg.
Proof.
  intros e g angles shift pg b k. unfold construct. pose proof (choose_spec e b) as C. destruct (fallback e b) as [x|b'].
  { split; [intros (p & E & _); discriminate|intros (_ & _ & H & _); destruct (proj2 C k H)]. }
  assert (D : existsb (Nat.eqb (List.length (vg_xyz g))) [2; 3]%nat = true <-> (List.length (vg_xyz g) = 2%nat \/ List.length (vg_xyz g) = 3%nat)).
  { cbn [existsb]. rewrite !orb_true_iff, !Nat.eqb_eq. split; [intros [H|[H|H]]; [auto|auto|discriminate]|tauto]. }
  destruct (existsb _ [2; 3]%nat) eqn:Ed; cbn [negb].
  2:{ split; [intros (p & E & _); discriminate|intros (H & _); apply D in H; discriminate]. }
  unfold is_square. destruct (Nat.eqb_spec (nth 0 (vg_xyz g) 0%nat) (nth 1 (vg_xyz g) 0%nat)) as [Es|Es]; cbn [negb].
  2:{ split; [intros (p & E & _); discriminate|intros (_ & H & _); congruence]. }
  destruct (choose e b') as [x|k1].
  { split; [intros (p & E & _); discriminate|intros (_ & _ & H & _); destruct (proj2 C k H)]. }
  destruct k1; cbn [is_astra init_backend]; rewrite ?orb_true_r; cbn [negb].
  - cbn [set_psf]. split.
    + intros (p & E & <-). injection E as <-. split; [now apply D|]. split; [assumption|]. split; [now apply C|]. intros H; discriminate.
    + intros (_ & _ & H & _). apply C in H. subst. eexists. split; reflexivity.
  - cbn [set_psf]. split.
    + intros (p & E & <-). injection E as <-. split; [now apply D|]. split; [assumption|]. split; [now apply C|]. intros H; discriminate.
    + intros (_ & _ & H & _). apply C in H. subst. eexists. split; reflexivity.
  - unfold sk_init. destruct pg as [pg|]; cbn [given negb orb].
    { split; [intros (p & E & _); discriminate|intros (_ & _ & H & S); apply C in H; destruct (S H) as (_ & _ & H'); discriminate]. }
    destruct (is_3D g) eqn:E3.
    { split; [intros (p & E & _); discriminate|intros (_ & _ & H & S); apply C in H; destruct (S H) as (H' & _); congruence]. }
    destruct shift as [sh|]; cbn [given].
    { split; [intros (p & E & _); discriminate|intros (_ & _ & H & S); apply C in H; destruct (S H) as (_ & H' & _); discriminate]. }
    cbn [set_psf]. split.
    + intros (p & E & <-). injection E as <-. split; [now apply D|]. split; [assumption|]. split; [now apply C|]. intros _. auto.
    + intros (_ & _ & H & _). apply C in H. subst. eexists. split; reflexivity.
Qed.
Theorem C213_refused : forall e g angles shift pg b x, construct e g angles shift pg None b = inl x -> x = ValueError.
Proof.
  intros e g angles shift pg b x. unfold construct. pose proof (choose_spec e b) as C. destruct (fallback e b) as [y|b'].
  { intros E. injection E as <-. apply C. }
  destruct (negb (existsb _ _)); [intros E; now injection E|]. destruct (negb (is_square g)); [intros E; now injection E|].
  destruct (choose e b') as [y|k]; [intros E; injection E as <-; apply C|].
  destruct (negb _); [intros E; now injection E|]. destruct k; cbn [init_backend set_psf]; try discriminate.
  unfold sk_init. destruct (is_3D g), (given shift), (given pg); cbn [set_psf]; intros E; try (now injection E); discriminate.
Qed.
(** without ASTRA, asking for it is asking for scikit-image; hence 3-D volumes, shifts and geometries are refused there *)
Theorem C213_fallback : forall e g angles shift pg psf, astra_ok e = false ->
  construct e g angles shift pg psf (BName "astra") = construct e g angles shift pg psf (BName "skimage").
Proof. intros e g angles shift pg psf E. unfold construct, fallback. rewrite E. reflexivity. Qed.
Theorem C213_defaults : forall e n angles,
  (exists p, construct e (mkVG [n; n] 1) angles None None None (default_backend e) = inr p /\ p_vol_shape p = [n; n] /\ p_prj_shape p = [List.length angles; n]) /\
  forall m, (2 <= m)%nat ->
  if astra_ok e
  then exists p, construct e (mkVG [n; n; m] 1) angles None None None (default_backend e) = inr p /\ p_vol_shape p = [m; n; n] /\ p_prj_shape p = [m; List.length angles; n]
  else construct e (mkVG [n; n; m] 1) angles None None None (default_backend e) = inl ValueError.
Proof.
  intros e n angles. split.
  - unfold construct, fallback, default_backend, is_square. destruct (astra_ok e); [destruct (astra_direct e) eqn:Ed|]; eexists; split; try split;
      cbn [vg_xyz List.length existsb Nat.eqb orb negb nth choose String.eqb Ascii.eqb Bool.eqb]; rewrite ?Nat.eqb_refl, ?Ed; cbn [negb given is_astra orb init_backend]; try reflexivity;
      unfold base_prj_shape, vol_eff, shape_zxy; cbn; rewrite ?eff_unit; reflexivity.
  - intros m Hm. unfold construct, fallback, default_backend, is_square. destruct (astra_ok e); [destruct (astra_direct e) eqn:Ed; eexists; split; try split|];
      cbn [vg_xyz List.length existsb Nat.eqb orb negb nth choose String.eqb Ascii.eqb Bool.eqb]; rewrite ?Nat.eqb_refl, ?Ed; cbn [negb given is_astra orb init_backend]; try reflexivity;
      try (unfold base_prj_shape, vol_eff, shape_zxy; cbn; rewrite ?eff_unit; reflexivity).
    unfold sk_init, is_3D. cbn [vg_xyz List.length Nat.eqb last]. destruct (Nat.ltb_spec 1 m); [reflexivity|lia].
Qed.

(** ** point-spread functions *)
(** the projector of ASTRA for a volume of unit voxels, given a PSF of any shape: the outcome depends on the number of axes that are
    longer than one *)
Definition with_psf (dims : list nat) (angles : list R) (psf : list nat * arr) : py_err + projector :=
  construct (mkE true false) (mkVG dims 1) angles None None (Some psf) (BName "astra").
Definition long_axes (s : list nat) : nat := List.length (squeeze s).
Lemma with_psf_eq : forall n l angles psf, l = [] \/ (exists z, l = [z]) ->
  with_psf (n :: n :: l) angles psf =
  match set_psf (2 + List.length l) (single_shape BkAstra (mkVG (n :: n :: l) 1) None) (base_prj_shape (mkVG (n :: n :: l) 1) (List.length angles)) (Some psf) with
  | inl x => inl x | inr ks => inr (mkP BkAstra (shape_zxy (mkVG (n :: n :: l) 1)) (base_prj_shape (mkVG (n :: n :: l) 1) (List.length angles)) ks) end.
Proof.
  intros n l angles psf Hl. unfold with_psf, construct, fallback, is_square.
  destruct Hl as [-> | (z & ->)]; cbn [astra_ok vg_xyz List.length existsb Nat.eqb orb negb nth]; rewrite Nat.eqb_refl;
    cbn [negb choose String.eqb Ascii.eqb Bool.eqb astra_direct given is_astra orb init_backend all_shape Nat.add]; reflexivity.
Qed.
(** accepted: one long axis, or two for a 3-D volume; more raise ValueError; none (a number, or a kernel of one tap) raises IndexError *)
Theorem C213_psf_accepted : forall n l angles s x, l = [] \/ (exists z, l = [z]) ->
  ((1 <= long_axes s <= 1 + List.length l)%nat -> exists p ks, with_psf (n :: n :: l) angles (s, x) = inr p /\ p_psf p = Some ks) /\
  ((2 + List.length l <= long_axes s)%nat -> with_psf (n :: n :: l) angles (s, x) = inl ValueError).
Proof.
  intros n l angles s x Hl. rewrite (with_psf_eq n l angles (s, x) Hl). unfold set_psf, long_axes. split; intros H.
  - destruct (Nat.leb_spec (2 + List.length l) (List.length (squeeze s))); [lia|]. unfold add_angle_axis. destruct (squeeze s); [cbn in H; lia|]. eexists. eexists. split; reflexivity.
  - destruct (Nat.leb_spec (2 + List.length l) (List.length (squeeze s))); [reflexivity|lia].
Qed.
Theorem C213_one_tap_refuted : forall n l angles x, l = [] \/ (exists z, l = [z]) ->
  with_psf (n :: n :: l) angles ([], x) = inl IndexError /\ with_psf (n :: n :: l) angles ([1%nat], x) = inl IndexError /\
  with_psf (n :: n :: l) angles ([1; 1]%nat, x) = inl IndexError.
Proof. intros n l angles x Hl. rewrite !with_psf_eq by exact Hl. destruct Hl as [-> | (z & ->)]; repeat split; reflexivity. Qed.

(** the two kernels are the given one, and the one for all angles has a single tap along the angle axis *)
Theorem C213_kernel_1d : forall n angles k x, k <> 1%nat -> exists p vu vwu,
  with_psf [n; n] angles ([k], x) = inr p /\ p_psf p = Some (vu, vwu) /\
  kn_data vu = [n] /\ kn_shape vu = [k] /\ (forall i, kn_val vu [i] = x [i]) /\
  kn_data vwu = [List.length angles; n] /\ kn_shape vwu = [1; k]%nat /\ (forall i, kn_val vwu [0%nat; i] = x [i]).
Proof.
  intros n angles k x Hk. rewrite with_psf_eq by auto. unfold set_psf, squeeze. cbn [filter].
  destruct (Nat.eqb_spec k 1) as [|_]; [contradiction|]. cbn [negb List.length Nat.leb Nat.add add_angle_axis].
  eexists. eexists. eexists. split; [reflexivity|]. split; [reflexivity|].
  unfold conv_kernel, ndmin, sq_arr, single_shape, base_prj_shape, vol_eff, shape_zxy. cbn [unsqueeze].
  destruct (Nat.eqb_spec k 1) as [|_]; [contradiction|].
  cbn [kn_data kn_shape kn_val vg_xyz vg_vox rev app List.length Nat.sub firstn skipn nth map last repeat unsqueeze]. rewrite ?eff_unit. repeat split; reflexivity.
Qed.
Theorem C213_kernel_2d : forall n z angles a b x, a <> 1%nat -> b <> 1%nat -> exists p vu vwu,
  with_psf [n; n; z] angles ([a; b], x) = inr p /\ p_psf p = Some (vu, vwu) /\
  kn_data vu = [z; n] /\ kn_shape vu = [a; b] /\ (forall i j, kn_val vu [i; j] = x [i; j]) /\
  kn_data vwu = [z; List.length angles; n] /\ kn_shape vwu = [a; 1; b]%nat /\ (forall i j, kn_val vwu [i; 0%nat; j] = x [i; j]).
Proof.
  intros n z angles a b x Ha Hb. rewrite with_psf_eq by eauto. unfold set_psf, squeeze. cbn [filter].
  destruct (Nat.eqb_spec a 1) as [|_]; [contradiction|]. destruct (Nat.eqb_spec b 1) as [|_]; [contradiction|]. cbn [negb List.length Nat.leb Nat.add add_angle_axis].
  eexists. eexists. eexists. split; [reflexivity|]. split; [reflexivity|].
  unfold conv_kernel, ndmin, sq_arr, single_shape, base_prj_shape, vol_eff, shape_zxy. cbn [unsqueeze].
  destruct (Nat.eqb_spec a 1) as [|_]; [contradiction|]. destruct (Nat.eqb_spec b 1) as [|_]; [contradiction|].
  cbn [kn_data kn_shape kn_val vg_xyz vg_vox rev app List.length Nat.sub firstn skipn nth map last repeat unsqueeze]. rewrite ?eff_unit. repeat split; reflexivity.
Qed.
(** a 1-D PSF of a 3-D volume acts along the detector rows (U) *)
Theorem C213_kernel_row : forall n z angles k x, k <> 1%nat -> exists p vu vwu,
  with_psf [n; n; z] angles ([k], x) = inr p /\ p_psf p = Some (vu, vwu) /\
  kn_shape vu = [1; k]%nat /\ (forall i, kn_val vu [0%nat; i] = x [i]) /\ kn_shape vwu = [1; 1; k]%nat /\ (forall i, kn_val vwu [0%nat; 0%nat; i] = x [i]).
Proof.
  intros n z angles k x Hk. rewrite with_psf_eq by eauto. unfold set_psf, squeeze. cbn [filter].
  destruct (Nat.eqb_spec k 1) as [|_]; [contradiction|]. cbn [negb List.length Nat.leb Nat.add add_angle_axis].
  eexists. eexists. eexists. split; [reflexivity|]. split; [reflexivity|].
  unfold conv_kernel, ndmin, sq_arr, single_shape, base_prj_shape, vol_eff, shape_zxy. cbn [unsqueeze].
  destruct (Nat.eqb_spec k 1) as [|_]; [contradiction|].
  cbn [kn_data kn_shape kn_val vg_xyz vg_vox rev app List.length Nat.sub firstn skipn nth map last repeat unsqueeze]. repeat split; reflexivity.
Qed.
(** ... and so does a vertical one: a PSF of k rows and one column is squeezed, and becomes one row of k columns *)
Theorem C213_vertical_psf_refuted : forall n z angles k x y, k <> 1%nat -> (forall i, y [i] = x [i; 0%nat]) ->
  exists p q vu vwu vu' vwu', with_psf [n; n; z] angles ([k; 1%nat], x) = inr p /\ p_psf p = Some (vu, vwu) /\
  with_psf [n; n; z] angles ([k], y) = inr q /\ p_psf q = Some (vu', vwu') /\
  kn_shape vu = [1; k]%nat /\ kn_shape vu' = [1; k]%nat /\ (forall i, kn_val vu [0%nat; i] = kn_val vu' [0%nat; i]) /\
  kn_shape vwu = [1; 1; k]%nat /\ kn_shape vwu' = [1; 1; k]%nat /\ (forall i, kn_val vwu [0%nat; 0%nat; i] = kn_val vwu' [0%nat; 0%nat; i]).
Proof.
  intros n z angles k x y Hk Hxy. rewrite !with_psf_eq by eauto. unfold set_psf, squeeze. cbn [filter Nat.eqb].
  destruct (Nat.eqb_spec k 1) as [|_]; [contradiction|]. cbn [negb List.length Nat.leb Nat.add add_angle_axis].
  do 6 eexists. split; [reflexivity|]. split; [reflexivity|]. split; [reflexivity|]. split; [reflexivity|].
  unfold conv_kernel, ndmin, sq_arr, single_shape, base_prj_shape, vol_eff, shape_zxy. cbn [unsqueeze Nat.eqb].
  destruct (Nat.eqb_spec k 1) as [|_]; [contradiction|].
  cbn [kn_data kn_shape kn_val vg_xyz vg_vox rev app List.length Nat.sub firstn skipn nth map last repeat unsqueeze]. repeat split; intros; rewrite Hxy; reflexivity.
Qed.
(** ASTRA with one slice [n, n, 1] and a given detector shape: the data have one axis per projection, yet a 2-D PSF is accepted *)
Theorem C213_one_slice_refuted : forall n d angles pg a b x, a <> 1%nat -> b <> 1%nat -> g_shape pg = Some [d] -> exists p vu vwu,
  construct (mkE true false) (mkVG [n; n; 1%nat] 1) angles None (Some pg) (Some ([a; b], x)) (BName "astra") = inr p /\
  p_prj_shape p = [List.length angles; d] /\ p_psf p = Some (vu, vwu) /\
  kn_data vu = [d] /\ kn_shape vu = [a; b] /\ kn_data vwu = [List.length angles; d] /\ kn_shape vwu = [a; 1; b]%nat.
Proof.
  intros n d angles pg a b x Ha Hb Hd. unfold construct, fallback, is_square. cbn [astra_ok vg_xyz List.length existsb Nat.eqb orb negb nth]. rewrite Nat.eqb_refl.
  cbn [negb choose String.eqb Ascii.eqb Bool.eqb astra_direct given is_astra orb init_backend all_shape Nat.add]. unfold set_psf, squeeze. cbn [filter].
  destruct (Nat.eqb_spec a 1) as [|_]; [contradiction|]. destruct (Nat.eqb_spec b 1) as [|_]; [contradiction|]. cbn [negb List.length Nat.leb Nat.add add_angle_axis].
  eexists. eexists. eexists. split; [reflexivity|]. unfold astra_setup, single_shape. rewrite Hd. unfold is_3D. cbn [vg_xyz List.length Nat.eqb last Nat.ltb Nat.leb andb].
  split; [reflexivity|]. split; [reflexivity|]. unfold conv_kernel, ndmin.
  cbn [kn_data kn_shape kn_val firstn skipn app List.length Nat.sub repeat last fst]. repeat split; reflexivity.
Qed.
