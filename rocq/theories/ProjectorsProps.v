(** C56-C58, C111, C112: matrix projector, uncorrected projector with intensities and PSF, self-attenuation projector. *)
From Coq Require Import Lia Lra Permutation.
From Verif Require Import Sums Arrays OperatorsModel OperatorsProps OperatorsMoreProps PyErr ProjectorsModel.
Import ListNotations.

(** * C56 *)
Theorem C56_matrix_adjoint p : adjoint_pair (mp_vol p) (mp_prj p) (mp_fp p) (mp_bp p).
Proof. apply C02_matrix_projector_adjoint. Qed.
Theorem C56_matrix_transpose p : (forall x, mp_fp (mp_transpose p) x = mp_bp p x) /\ (forall y, mp_bp (mp_transpose p) y = mp_fp p y) /\
  mp_vol (mp_transpose p) = mp_prj p /\ mp_prj (mp_transpose p) = mp_vol p.
Proof. repeat split. Qed.
Lemma rsum_Rabs_le n f g : (forall i, (i < n)%nat -> Rabs (f i) <= g i) -> Rabs (rsum n f) <= rsum n g.
Proof. intros H. eapply Rle_trans; [apply rsum_abs|]. apply rsum_le. assumption. Qed.
Theorem C56_matrix_absolute p x y l : (forall v, inb (mp_vol p) v -> Rabs (x v) <= y v) -> inb (mp_prj p) l ->
  Rabs (mp_fp p x l) <= mp_fp (mp_absolute p) y l.
Proof.
  intros Hx Hl. unfold mp_fp, reshape, flatten. cbn [mp_absolute mp_prj mp_vol mp_A]. apply rsum_Rabs_le. intros j Hj.
  rewrite Rabs_mult. apply Rmult_le_compat_l; [apply Rabs_pos|]. apply Hx. apply unflat_inb. assumption.
Qed.
(** ... and the bound is attained by a volume with matching signs: absolute() is the smallest such operator *)
Theorem C56_matrix_absolute_tight p l : inb (mp_prj p) l -> exists x, (forall v, Rabs (x v) <= 1) /\ mp_fp p x l = mp_fp (mp_absolute p) (fun _ => 1) l.
Proof.
  intros Hl. exists (fun v => if Rle_dec 0 (mp_A p (flat (mp_prj p) l) (flat (mp_vol p) v)) then 1 else -1). split.
  - intros v. destruct (Rle_dec _ _); [rewrite Rabs_right; lra|rewrite Rabs_left; lra].
  - unfold mp_fp, reshape, flatten. cbn [mp_absolute mp_prj mp_vol mp_A]. apply rsum_ext. intros j Hj. rewrite flat_unflat by assumption.
    destruct (Rle_dec _ _) as [H|H]; [rewrite Rabs_right; lra|rewrite Rabs_left; lra].
Qed.

(** * C57 *)
(** rows: everything about one angle *)
Lemma ins_del {A} ax (l : list A) d : (ax < length l)%nat -> ins ax (nth ax l d) (del ax l) = l.
Proof. revert ax. induction l as [|h t IH]; intros [|a] H; simpl in *; try lia; [reflexivity|]. f_equal. apply IH. lia. Qed.
Lemma del_ins {A} ax (v : A) l : (ax <= length l)%nat -> del ax (ins ax v l) = l.
Proof. revert ax. induction l as [|h t IH]; intros [|a] H; simpl in *; try lia; try reflexivity. f_equal. apply IH. lia. Qed.
Lemma ins_length {A} ax (v : A) l : (ax <= length l)%nat -> length (ins ax v l) = S (length l).
Proof. revert ax. induction l as [|h t IH]; intros [|a] H; simpl in *; try lia. f_equal. apply IH. lia. Qed.
Lemma bsum_ins s ax n f : (ax <= length s)%nat ->
  bsum (ins ax n s) f = bsum s (fun l => rsum n (fun i => f (ins ax i l))).
Proof.
  intros H. rewrite (bsum_axis _ ax) by (rewrite ins_length; lia). rewrite del_ins, nth_ins by assumption. reflexivity.
Qed.
Lemma inb_ins' s ax n i l : (ax <= length s)%nat -> inb s l -> (i < n)%nat -> inb (ins ax n s) (ins ax i l).
Proof.
  intros Ha Hl Hi. revert ax Ha. induction Hl as [|x m l s Hx Hl IH]; intros ax Ha.
  - assert (ax = 0%nat) by (simpl in Ha; lia). subst ax. simpl. repeat constructor. assumption.
  - destruct ax as [|a]; simpl; constructor; auto; try constructor; auto. apply IH. simpl in Ha. lia.
Qed.
(** the multi-index form of a 1-sample kernel axis *)
Lemma zpos_ins ax l K j w : length l = length K -> length j = length K -> (ax <= length K)%nat ->
  zpos (ins ax w l) (ins ax 1%nat K) (ins ax 0%nat j) = ins ax (Z.of_nat w) (zpos l K j).
Proof.
  unfold zpos. revert l K j. induction ax as [|a IH]; intros l K j Hl Hj Ha.
  - simpl. f_equal. lia.
  - destruct l as [|l0 l], K as [|k0 K], j as [|j0 j]; simpl in *; try lia. f_equal. apply IH; lia.
Qed.
Lemma pad_index_in mode n w : (w < n)%nat -> pad_index mode n (Z.of_nat w) = Some w.
Proof.
  intros H. unfold pad_index. destruct mode.
  - destruct (Z.leb_spec 0 (Z.of_nat w)), (Z.ltb_spec (Z.of_nat w) (Z.of_nat n)); cbn [andb]; try lia. f_equal. lia.
  - f_equal. lia.
  - rewrite Z.mod_small by lia. f_equal. lia.
  - destruct (Nat.eq_dec n 1) as [->|].
    + assert (w = 0%nat) by lia. subst w. reflexivity.
    + rewrite Z.mod_small by lia. destruct (Z.ltb_spec (Z.of_nat w) (Z.of_nat n)); [|lia]. f_equal. lia.
  - rewrite Z.mod_small by lia. destruct (Z.ltb_spec (Z.of_nat w) (Z.of_nat n)); [|lia]. f_equal. lia.
Qed.
Lemma pad_src_ins mode ax n w : forall s p, (w < n)%nat -> length p = length s -> (ax <= length s)%nat ->
  pad_src mode (ins ax n s) (ins ax (Z.of_nat w) p) = option_map (ins ax w) (pad_src mode s p).
Proof.
  induction ax as [|a IH]; intros s p Hw Hp Ha.
  - simpl. rewrite pad_index_in by assumption. destruct (pad_src mode s p); reflexivity.
  - destruct s as [|m s], p as [|z p]; simpl in *; try lia. rewrite IH by lia. destruct (pad_index mode m z); [|reflexivity].
    destruct (pad_src mode s p); reflexivity.
Qed.
Lemma zpos_length l K j : length l = length K -> length j = length K -> length (zpos l K j) = length K.
Proof. intros. unfold zpos, pad_width. rewrite map_length, !combine_length, map_length. lia. Qed.
Lemma odd_ins ax K : odd_shape K -> (ax <= length K)%nat -> odd_shape (ins ax 1%nat K).
Proof.
  unfold odd_shape. intros H. revert ax. induction H as [|k K Hk H IH]; intros ax Ha.
  - assert (ax = 0%nat) by (simpl in Ha; lia). subst ax. simpl. constructor; [exists 0%nat; lia|constructor].
  - destruct ax as [|a]; simpl; constructor; auto.
    + exists 0%nat. lia.
    + apply IH. simpl in Ha. lia.
Qed.
(** the PSF of the whole sinogram acts on each angle like the single-angle PSF *)
Lemma conv_row mode ax n s K kernel x w l : length K = length s -> odd_shape K -> (ax <= length s)%nat -> (w < n)%nat -> inb s l ->
  conv_direct mode (ins ax n s) (ins ax 1%nat K) (fun j => kernel (del ax j)) x (ins ax w l) =
  conv_direct mode s K kernel (fun m => x (ins ax w m)) l.
Proof.
  intros HK Ho Ha Hw Hl. pose proof (inb_length _ _ Hl) as HL.
  rewrite conv_direct_eq; [|rewrite !ins_length by lia; lia|apply odd_ins; [assumption|lia]|apply inb_ins'; assumption].
  rewrite conv_direct_eq by assumption. rewrite bsum_ins by lia. apply bsum_ext. intros j Hj. pose proof (inb_length _ _ Hj) as HJ.
  cbn [rsum]. rewrite Rplus_0_l. rewrite del_ins by lia. f_equal. rewrite zpos_ins by lia. unfold pad_read.
  rewrite pad_src_ins; [|assumption|rewrite zpos_length; lia|assumption]. destruct (pad_src mode s (zpos l K j)); reflexivity.
Qed.
Lemma conv_scal mode s K kernel c x l : length K = length s -> odd_shape K -> inb s l ->
  conv_direct mode s K kernel (fun m => c * x m) l = c * conv_direct mode s K kernel x l.
Proof.
  intros HK Ho Hl. rewrite !conv_direct_eq by assumption. rewrite <- bsum_scal. apply bsum_ext. intros j Hj.
  unfold pad_read. destruct (pad_src mode s (zpos l K j)); ring.
Qed.
Lemma conv_ext mode s K kernel x y l : length K = length s -> odd_shape K -> inb s l ->
  (forall p q, pad_src mode s p = Some q -> x q = y q) -> conv_direct mode s K kernel x l = conv_direct mode s K kernel y l.
Proof.
  intros HK Ho Hl Hxy. rewrite !conv_direct_eq by assumption. apply bsum_ext. intros j Hj.
  unfold pad_read. destruct (pad_src mode s (zpos l K j)) eqn:E; [|reflexivity]. f_equal. eauto.
Qed.
(** edge padding never leaves the array *)
Lemma edge_inb s : forall p q, (forall n, In n s -> (0 < n)%nat) -> pad_src PadEdge s p = Some q -> inb s q.
Proof.
  induction s as [|n s IH]; intros [|z p] q Hn H; simpl in H; try discriminate.
  - injection H as <-. constructor.
  - destruct (pad_src PadEdge s p) as [t|] eqn:E; [|discriminate]. injection H as <-. constructor.
    + assert (0 < n)%nat by (apply Hn; left; reflexivity). lia.
    + apply (IH p); [|assumption]. intros m Hm. apply Hn. right. assumption.
Qed.
Lemma inb_pos s l : inb s l -> forall n, In n s -> (0 < n)%nat.
Proof. intros H. induction H as [|i m l s Hi H IH]; intros n []; [lia|auto]. Qed.
Lemma conv_ext_in s K kernel x y l : length K = length s -> odd_shape K -> inb s l ->
  (forall q, inb s q -> x q = y q) -> conv_direct PadEdge s K kernel x l = conv_direct PadEdge s K kernel y l.
Proof.
  intros HK Ho Hl Hxy. apply conv_ext; auto. intros p q Hq. apply Hxy. eapply edge_inb; [|eassumption]. eapply inb_pos. eassumption.
Qed.

(** well-formed projector: at least one detector axis, PSF of the right rank with odd sizes *)
Definition un_ok (p : uncorrected) : Prop := (1 <= length (u_vu p))%nat /\
  match u_psf p with Some (K, _) => length K = length (u_vu p) /\ odd_shape K | None => True end.
(** the backend's two interfaces agree: line a of the full projection is the projection at the single angle a, and the full
    back-projection is the sum of those of the lines *)
Definition fp_consistent (p : uncorrected) : Prop := forall x a l, (a < u_n p)%nat -> inb (u_vu p) l ->
  u_fp p x (ins (w_axis p) a l) = u_fpa p a x l.
(** the backend only reads its argument inside its shape *)
Definition local (s : list nat) (A : arr -> arr) : Prop := forall x y, (forall l, inb s l -> x l = y l) -> forall l, A x l = A y l.
Definition bp_consistent (p : uncorrected) : Prop := forall y v, inb (u_vol p) v ->
  u_bp p y v = rsum (u_n p) (fun a => u_bpa p a (row (w_axis p) a y) v).

Lemma int_w_row p x a l : (w_axis p <= length l)%nat -> int_w p x (ins (w_axis p) a l) = int_a p a (row (w_axis p) a x) l.
Proof. intros H. unfold int_w, int_a, row. destruct (u_int p); [rewrite nth_ins by assumption|]; reflexivity. Qed.
(** every line of the full projection (with intensities and PSF) is the single-angle projection *)
Theorem C57_rows_are_single_angles p x a l : un_ok p -> fp_consistent p -> (a < u_n p)%nat -> inb (u_vu p) l ->
  un_fp p x (ins (w_axis p) a l) = un_fp_angle p a x l.
Proof.
  intros [H1 H2] Hc Ha Hl. pose proof (inb_length _ _ Hl) as HL. assert (Hw : (w_axis p <= length (u_vu p))%nat) by (unfold w_axis; lia).
  assert (E : forall m, inb (u_vu p) m -> int_w p (u_fp p x) (ins (w_axis p) a m) = int_a p a (u_fpa p a x) m).
  { intros m Hm. pose proof (inb_length _ _ Hm). rewrite int_w_row by lia. unfold int_a, row. destruct (u_int p); rewrite Hc; auto. }
  unfold un_fp, un_fp_angle, psf_vwu, psf_vu. destruct (u_psf p) as [[K kernel]|]; cbn [option_map opt_call]; [|apply E; assumption].
  destruct H2 as [HK Ho]. cbn [fst snd].
  change (call (transform_convolution PadEdge (vwu p) (ins (w_axis p) 1%nat K) (u_symm p) false (fun j => kernel (del (w_axis p) j))) (int_w p (u_fp p x)) (ins (w_axis p) a l))
    with (conv_direct PadEdge (ins (w_axis p) (u_n p) (u_vu p)) (ins (w_axis p) 1%nat K) (fun j => kernel (del (w_axis p) j)) (int_w p (u_fp p x)) (ins (w_axis p) a l)).
  rewrite conv_row by assumption.
  change (conv_direct PadEdge (u_vu p) K kernel (fun m => int_w p (u_fp p x) (ins (w_axis p) a m)) l = conv_direct PadEdge (u_vu p) K kernel (int_a p a (u_fpa p a x)) l).
  apply conv_ext_in; auto.
Qed.
Theorem C57_bp_is_sum_of_angles p y v : un_ok p -> bp_consistent p -> (forall a, local (u_vu p) (u_bpa p a)) -> inb (u_vol p) v ->
  un_bp p y v = rsum (u_n p) (fun a => un_bp_angle p a (row (w_axis p) a y) v).
Proof.
  intros [H1 H2] Hc Hloc Hv. unfold un_bp. rewrite Hc by assumption. apply rsum_ext. intros a Ha. unfold un_bp_angle. apply Hloc.
  intros l Hl. pose proof (inb_length _ _ Hl) as HL. assert (Hw : (w_axis p <= length (u_vu p))%nat) by (unfold w_axis; lia).
  unfold psf_vwu, psf_vu. destruct (u_psf p) as [[K kernel]|]; cbn [option_map opt_call]; unfold row at 1.
  2:{ rewrite int_w_row by lia. reflexivity. }
  destruct H2 as [HK Ho]. cbn [fst snd]. unfold transpose, transform_convolution, new_transform, call. cbn [t_is_dir t_adjoint t_direct negb].
  unfold conv_adjoint. destruct (u_symm p); cbn.
  - unfold vwu. rewrite conv_row by assumption. apply conv_ext_in; auto. intros q Hq. pose proof (inb_length _ _ Hq). apply int_w_row. lia.
  - apply int_w_row. lia.
Qed.

(** adjointness *)
Lemma int_w_adj p s x y : adot s (int_w p x) y = adot s x (int_w p y).
Proof. unfold int_w. destruct (u_int p); [|reflexivity]. apply bsum_ext. intros; ring. Qed.
(** with intensities and no PSF: an adjoint pair as soon as the backend is *)
Theorem C57_adjoint_without_psf p : u_psf p = None -> adjoint_pair (u_vol p) (vwu p) (u_fp p) (u_bp p) ->
  adjoint_pair (u_vol p) (vwu p) (un_fp p) (un_bp p).
Proof.
  intros Hp H x y. unfold un_fp, un_bp, psf_vwu. rewrite Hp. cbn [option_map opt_call].
  rewrite int_w_adj. apply H.
Qed.
Lemma inb_del_ins ax n : forall s l, (ax <= length s)%nat -> inb (ins ax n s) l -> inb s (del ax l).
Proof.
  induction ax as [|b IH]; intros s l Hw Hl.
  - simpl in Hl. inversion Hl; subst. simpl. assumption.
  - destruct s as [|k s]; [simpl in Hw; lia|]. simpl in Hl. inversion Hl; subst. simpl. constructor; [assumption|]. apply IH; [simpl in Hw; lia|assumption].
Qed.
(** the intensities commute with the PSF *)
Lemma psf_int_commute p K kernel x l : un_ok p -> u_psf p = Some (K, kernel) -> inb (vwu p) l ->
  conv_direct PadEdge (vwu p) (ins (w_axis p) 1%nat K) (fun j => kernel (del (w_axis p) j)) (int_w p x) l =
  int_w p (conv_direct PadEdge (vwu p) (ins (w_axis p) 1%nat K) (fun j => kernel (del (w_axis p) j)) x) l.
Proof.
  intros [H1 H2] Hp Hl. rewrite Hp in H2. destruct H2 as [HK Ho]. assert (Hw : (w_axis p <= length (u_vu p))%nat) by (unfold w_axis; lia).
  pose proof (inb_length _ _ Hl) as HL. unfold vwu in HL. rewrite ins_length in HL by assumption.
  set (a := nth (w_axis p) l 0%nat). set (m := del (w_axis p) l).
  assert (El : l = ins (w_axis p) a m) by (unfold a, m; rewrite ins_del by (unfold w_axis in *; lia); reflexivity).
  assert (Ha : (a < u_n p)%nat).
  { unfold a. pose proof (inb_nth _ (w_axis p) _ Hl) as Hn. unfold vwu in Hn. rewrite nth_ins in Hn by assumption. apply Hn. rewrite ins_length; lia. }
  assert (Hm : inb (u_vu p) m).
  { unfold m. eapply inb_del_ins; eassumption. }
  rewrite El. unfold vwu. unfold int_w at 2. destruct (u_int p) as [I|] eqn:EI.
  - rewrite nth_ins by (rewrite (inb_length _ _ Hm); assumption). rewrite !conv_row by assumption.
    rewrite <- conv_scal by assumption. apply conv_ext_in; auto. intros q Hq. unfold int_w. rewrite EI, nth_ins; [reflexivity|]. rewrite (inb_length _ _ Hq). assumption.
  - rewrite !conv_row by assumption. apply conv_ext_in; auto. intros q Hq. unfold int_w. rewrite EI. reflexivity.
Qed.
(** with a PSF: an adjoint pair as soon as the backend is and the PSF operator itself is self-adjoint *)
Definition psf_self_adjoint (p : uncorrected) : Prop := forall K kernel, u_psf p = Some (K, kernel) -> forall x y,
  adot (vwu p) (conv_direct PadEdge (vwu p) (ins (w_axis p) 1%nat K) (fun j => kernel (del (w_axis p) j)) x) y =
  adot (vwu p) x (conv_direct PadEdge (vwu p) (ins (w_axis p) 1%nat K) (fun j => kernel (del (w_axis p) j)) y).
Theorem C57_adjoint_with_psf p : un_ok p -> u_symm p = true -> psf_self_adjoint p ->
  adjoint_pair (u_vol p) (vwu p) (u_fp p) (u_bp p) -> adjoint_pair (u_vol p) (vwu p) (un_fp p) (un_bp p).
Proof.
  intros Hok Hs Hp H. destruct (u_psf p) as [[K kernel]|] eqn:EP; [|apply C57_adjoint_without_psf; assumption].
  intros x y. unfold un_fp, un_bp, psf_vwu. rewrite EP. cbn [option_map opt_call fst snd].
  unfold transpose, transform_convolution, new_transform, call. cbn [t_is_dir t_adjoint t_direct negb]. unfold conv_adjoint. rewrite Hs.
  rewrite (Hp _ _ EP), int_w_adj.
  rewrite <- H. apply bsum_ext. intros l Hl. f_equal. symmetry. apply psf_int_commute; assumption.
Qed.
(** by default the back-projection ignores the PSF altogether *)
Definition no_psf (p : uncorrected) : uncorrected :=
  mkU (u_vol p) (u_vu p) (u_n p) (u_int p) None (u_symm p) (u_fp p) (u_bp p) (u_fpa p) (u_bpa p).
Theorem C57_default_bp_ignores_psf p y v : u_symm p = false -> un_bp p y v = un_bp (no_psf p) y v /\
  (forall a, un_bp_angle p a y v = un_bp_angle (no_psf p) a y v).
Proof.
  intros H. unfold un_bp, un_bp_angle, psf_vwu, psf_vu. cbn [no_psf u_psf option_map opt_call]. destruct (u_psf p) as [[K kernel]|]; [|split; reflexivity].
  unfold transpose, transform_convolution, new_transform, call, conv_adjoint. cbn [option_map opt_call t_is_dir t_adjoint t_direct negb]. rewrite H. split; reflexivity.
Qed.
(** concrete projector: the identity projection of a 1 x u volume at one angle, with a PSF along u *)
Definition demo (u : nat) (symm : bool) (psf : option (list nat * arr)) : uncorrected :=
  mkU [1%nat; u] [u] 1 None psf symm (fun x => x) (fun y => y) (fun _ x l => x (0%nat :: l)) (fun _ y l => y (tl l)).
Lemma demo_backend u symm psf : adjoint_pair (u_vol (demo u symm psf)) (vwu (demo u symm psf)) (u_fp (demo u symm psf)) (u_bp (demo u symm psf)).
Proof. intros x y. reflexivity. Qed.
Definition psf_of (l : list R) : list nat * arr := ([length l], fun j => nth (nth 0 j 0%nat) l 0).
Definition unc_adjoint_always : Prop := forall p, un_ok p -> adjoint_pair (u_vol p) (vwu p) (u_fp p) (u_bp p) ->
  adjoint_pair (u_vol p) (vwu p) (un_fp p) (un_bp p).
Lemma odd3 : odd_shape [3%nat]. Proof. repeat constructor. exists 1%nat. reflexivity. Qed.
Lemma odd5 : odd_shape [5%nat]. Proof. repeat constructor. exists 2%nat. reflexivity. Qed.
(** default construction with a PSF (is_conv_symm=False): not an adjoint pair *)
Theorem C57_default_psf_refuted : ~ unc_adjoint_always.
Proof.
  intros H. specialize (H (demo 2 false (Some (psf_of [1; 1; 1])))).
  assert (Hok : un_ok (demo 2 false (Some (psf_of [1; 1; 1])))) by (split; [simpl; lia|split; [reflexivity|apply odd3]]).
  specialize (H Hok (demo_backend _ _ _) (fun _ => 1) (fun _ => 1)).
  assert (F : forall l, inb [1%nat; 2%nat] l -> un_fp (demo 2 false (Some (psf_of [1; 1; 1]))) (fun _ => 1) l = 3).
  { intros l Hl. change (conv_direct PadEdge [1%nat; 2%nat] [1%nat; 3%nat] (fun j => nth (nth 0 (del 0 j) 0%nat) [1; 1; 1] 0) (fun _ => 1) l = 3).
    rewrite conv_direct_eq; [|reflexivity|apply (odd_ins 0 [3%nat]); [apply odd3|simpl; lia]|assumption].
    inversion Hl as [|a ? l1 ? Ha Hl1]; subst. inversion Hl1 as [|b ? l2 ? Hb Hl2]; subst. inversion Hl2; subst.
    unfold pad_read. cbn. lra. }
  unfold adot in H. rewrite (bsum_ext _ _ (fun _ => 3)) in H by (intros l Hl; rewrite F by assumption; ring).
  change (bsum [1%nat; 2%nat] (fun _ => 3) = bsum [1%nat; 2%nat] (fun _ => 1 * 1)) in H. cbn in H. lra.
Qed.
(** is_conv_symm=True, symmetric 5-tap PSF: still not adjoint, because of the edge padding *)
Definition unc_adjoint_symm : Prop := forall p K kernel, un_ok p -> u_symm p = true -> u_psf p = Some (K, kernel) ->
  (forall j, inb K j -> np_flip K kernel j = kernel j) ->
  adjoint_pair (u_vol p) (vwu p) (u_fp p) (u_bp p) -> adjoint_pair (u_vol p) (vwu p) (un_fp p) (un_bp p).
Theorem C57_symmetric_psf_refuted : ~ unc_adjoint_symm.
Proof.
  intros H. specialize (H (demo 3 true (Some (psf_of [1; 0; 0; 0; 1]))) [5%nat] (snd (psf_of [1; 0; 0; 0; 1]))).
  assert (Hok : un_ok (demo 3 true (Some (psf_of [1; 0; 0; 0; 1])))) by (split; [simpl; lia|split; [reflexivity|apply odd5]]).
  specialize (H Hok eq_refl eq_refl).
  assert (Hf : forall j, inb [5%nat] j -> np_flip [5%nat] (snd (psf_of [1; 0; 0; 0; 1])) j = snd (psf_of [1; 0; 0; 0; 1]) j).
  { intros j Hj. inversion Hj as [|a ? l1 ? Ha Hl1]; subst. inversion Hl1; subst. unfold np_flip. cbn [combine map fst snd psf_of nth].
    destruct a as [|[|[|[|[|]]]]]; try reflexivity. lia. }
  specialize (H Hf (demo_backend _ _ _) (fun l => if Nat.eqb (nth 1 l 0%nat) 0 then 1 else 0) (fun l => if Nat.eqb (nth 1 l 0%nat) 1 then 1 else 0)).
  assert (F : forall x l, inb [1%nat; 3%nat] l -> conv_direct PadEdge [1%nat; 3%nat] [1%nat; 5%nat] (fun j => nth (nth 0 (del 0 j) 0%nat) [1; 0; 0; 0; 1] 0) x l =
     x [0%nat; Z.to_nat (Z.max 0 (Z.min (Z.of_nat (nth 1 l 0%nat) + 2) 2))] + x [0%nat; Z.to_nat (Z.max 0 (Z.min (Z.of_nat (nth 1 l 0%nat) - 2) 2))]).
  { intros x l Hl. rewrite conv_direct_eq; [|reflexivity|apply (odd_ins 0 [5%nat]); [apply odd5|simpl; lia]|assumption].
    inversion Hl as [|a ? l1 ? Ha Hl1]; subst. inversion Hl1 as [|b ? l2 ? Hb Hl2]; subst. inversion Hl2; subst.
    assert (a = 0%nat) by lia. subst a. unfold pad_read, zpos, pad_width. cbn [bsum rsum map combine fst snd pad_src pad_index del nth].
    change ((5 - 1) / 2)%nat with 2%nat. change ((1 - 1) / 2)%nat with 0%nat. cbn [nth].
    change (Z.of_nat 3) with 3%Z. change (Z.of_nat 1) with 1%Z. change (Z.of_nat 0) with 0%Z.
    replace (Z.of_nat b + Z.of_nat 2 - 0)%Z with (Z.of_nat b + 2)%Z by lia. replace (Z.of_nat b + Z.of_nat 2 - Z.of_nat 4)%Z with (Z.of_nat b - 2)%Z by lia.
    cbn. ring. }
  unfold adot in H.
  change (vwu (demo 3 true (Some (psf_of [1; 0; 0; 0; 1])))) with [1%nat; 3%nat] in H.
  change (u_vol (demo 3 true (Some (psf_of [1; 0; 0; 0; 1])))) with [1%nat; 3%nat] in H.
  erewrite (bsum_ext [1%nat; 3%nat] (fun l => un_fp _ _ l * _)) in H by (intros l Hl;
    change (un_fp (demo 3 true (Some (psf_of [1; 0; 0; 0; 1]))) (fun l => if Nat.eqb (nth 1 l 0%nat) 0 then 1 else 0) l)
      with (conv_direct PadEdge [1%nat; 3%nat] [1%nat; 5%nat] (fun j => nth (nth 0 (del 0 j) 0%nat) [1; 0; 0; 0; 1] 0) (fun l => if Nat.eqb (nth 1 l 0%nat) 0 then 1 else 0) l);
    rewrite F by exact Hl; reflexivity).
  symmetry in H.
  erewrite (bsum_ext [1%nat; 3%nat]) in H by (intros l Hl;
    change (un_bp (demo 3 true (Some (psf_of [1; 0; 0; 0; 1]))) (fun l => if Nat.eqb (nth 1 l 0%nat) 1 then 1 else 0) l)
      with (conv_direct PadEdge [1%nat; 3%nat] [1%nat; 5%nat] (fun j => nth (nth 0 (del 0 j) 0%nat) [1; 0; 0; 0; 1] 0) (fun l => if Nat.eqb (nth 1 l 0%nat) 1 then 1 else 0) l);
    rewrite F by exact Hl; reflexivity).
  cbn in H. change (Pos.to_nat 2) with 2%nat in H. cbn in H. lra.
Qed.
(** a symmetric PSF of 3 samples is self-adjoint under edge padding: then everything is exact (2-D data) *)
Lemma conv3 u k x i : (i < u)%nat ->
  conv_direct PadEdge [u] [3%nat] k x [i] =
  k [0%nat] * x [Nat.min (i + 1) (u - 1)] + k [1%nat] * x [i] + k [2%nat] * x [(i - 1)%nat].
Proof.
  intros Hi. rewrite conv_direct_eq; [|reflexivity|apply odd3|repeat constructor; assumption].
  unfold pad_read, zpos, pad_width. cbn [bsum rsum map combine fst snd pad_src pad_index].
  change ((3 - 1) / 2)%nat with 1%nat.
  replace (Z.to_nat (Z.max 0 (Z.min (Z.of_nat i + Z.of_nat 1 - Z.of_nat 0) (Z.of_nat u - 1)))) with (Nat.min (i + 1) (u - 1)) by lia.
  replace (Z.to_nat (Z.max 0 (Z.min (Z.of_nat i + Z.of_nat 1 - Z.of_nat 1) (Z.of_nat u - 1)))) with i by lia.
  replace (Z.to_nat (Z.max 0 (Z.min (Z.of_nat i + Z.of_nat 1 - Z.of_nat 2) (Z.of_nat u - 1)))) with (i - 1)%nat by lia.
  ring.
Qed.
Lemma shift_up u (x y : nat -> R) : rsum (S u) (fun i => x (Nat.min (i + 1) u) * y i) = rsum u (fun i => x (S i) * y i) + x u * y u.
Proof.
  cbn [rsum]. f_equal; [|f_equal; f_equal; lia]. apply rsum_ext. intros i Hi. f_equal. f_equal. lia.
Qed.
Lemma shift_down u (x y : nat -> R) : rsum (S u) (fun i => x (i - 1)%nat * y i) = x 0%nat * y 0%nat + rsum u (fun i => x i * y (S i)).
Proof. rewrite rsum_S_l. f_equal. apply rsum_ext. intros i Hi. f_equal. f_equal. lia. Qed.
Lemma conv3_self u k x y : k [2%nat] = k [0%nat] ->
  rsum u (fun i => conv_direct PadEdge [u] [3%nat] k x [i] * y [i]) = rsum u (fun i => x [i] * conv_direct PadEdge [u] [3%nat] k y [i]).
Proof.
  intros Hk. destruct u as [|u]; [reflexivity|].
  assert (L : forall a b, rsum (S u) (fun i => conv_direct PadEdge [S u] [3%nat] k a [i] * b [i]) =
     k [0%nat] * (rsum u (fun i => a [S i] * b [i]) + a [u] * b [u]) + k [1%nat] * rsum (S u) (fun i => a [i] * b [i]) +
     k [0%nat] * (a [0%nat] * b [0%nat] + rsum u (fun i => a [i] * b [S i]))).
  { intros a b. rewrite <- (shift_up u (fun i => a [i]) (fun i => b [i])), <- (shift_down u (fun i => a [i]) (fun i => b [i])).
    rewrite <- !rsum_scal, <- !rsum_plus. apply rsum_ext. intros i Hi. rewrite conv3 by assumption. rewrite Hk. replace (S u - 1)%nat with u by lia. ring. }
  rewrite L. rewrite (rsum_ext (S u) (fun i => x [i] * conv_direct PadEdge [S u] [3%nat] k y [i]) (fun i => conv_direct PadEdge [S u] [3%nat] k y [i] * x [i])) by (intros; ring).
  rewrite L.
  rewrite (rsum_ext u (fun i => y [S i] * x [i]) (fun i => x [i] * y [S i])) by (intros; ring).
  rewrite (rsum_ext u (fun i => y [i] * x [S i]) (fun i => x [S i] * y [i])) by (intros; ring).
  rewrite (rsum_ext (S u) (fun i => y [i] * x [i]) (fun i => x [i] * y [i])) by (intros; ring). ring.
Qed.
Theorem C57_three_tap_symmetric_psf p u kernel : u_vu p = [u] -> u_symm p = true -> u_psf p = Some ([3%nat], kernel) ->
  kernel [2%nat] = kernel [0%nat] -> adjoint_pair (u_vol p) (vwu p) (u_fp p) (u_bp p) ->
  adjoint_pair (u_vol p) (vwu p) (un_fp p) (un_bp p).
Proof.
  intros Hu Hs Hp Hk. apply C57_adjoint_with_psf; [|assumption|].
  - split; [rewrite Hu; simpl; lia|]. rewrite Hp, Hu. split; [reflexivity|apply odd3].
  - intros K k E x y. rewrite Hp in E. injection E as <- <-. unfold vwu, w_axis. rewrite Hu. cbn [length Nat.sub ins].
    unfold adot. cbn [bsum]. apply rsum_ext. intros a Ha.
    assert (F : forall z i, (i < u)%nat -> conv_direct PadEdge [u_n p; u] [1%nat; 3%nat] (fun j => kernel (del 0 j)) z [a; i] =
       conv_direct PadEdge [u] [3%nat] kernel (fun m => z (a :: m)) [i]).
    { intros z i Hi. apply (conv_row PadEdge 0 (u_n p) [u] [3%nat] kernel z a [i]); auto; try (simpl; lia). apply odd3. repeat constructor. assumption. }
    rewrite (rsum_ext u _ (fun i => conv_direct PadEdge [u] [3%nat] kernel (fun m => x (a :: m)) [i] * y [a; i])) by (intros i Hi; rewrite F by assumption; reflexivity).
    rewrite (conv3_self u kernel (fun m => x (a :: m)) (fun m => y (a :: m)) Hk). apply rsum_ext. intros i Hi. rewrite F by assumption. reflexivity.
Qed.
Example C57_witness : un_ok (demo 4 true (Some (psf_of [1; 2; 1]))) /\
  adjoint_pair [1%nat; 4%nat] [1%nat; 4%nat] (un_fp (demo 4 true (Some (psf_of [1; 2; 1])))) (un_bp (demo 4 true (Some (psf_of [1; 2; 1])))).
Proof.
  split; [split; [simpl; lia|split; [reflexivity|apply odd3]]|].
  apply (C57_three_tap_symmetric_psf (demo 4 true (Some (psf_of [1; 2; 1]))) 4 (snd (psf_of [1; 2; 1]))); auto. intros x y. reflexivity.
Qed.

(** * C111: shape of the projections *)
(** the traditional ASTRA backend squeezes: the advertised shape is returned exactly when no axis has length 1 *)
Lemma squeeze_id s : squeeze s = s <-> ~ In 1%nat s.
Proof.
  split.
  - intros H Hi. rewrite <- H in Hi. apply filter_In in Hi as [_ Hi]. discriminate.
  - induction s as [|n s IH]; intros H; [reflexivity|]. simpl in *. destruct (Nat.eqb_spec n 1); [exfalso; apply H; auto|]. cbn [negb]. f_equal. apply IH. tauto.
Qed.
Theorem C111_astra_shape prj n : un_fp_shape prj n false = inr prj <-> ~ In 1%nat prj.
Proof. unfold un_fp_shape, astra_fp_shape. rewrite <- squeeze_id. split; intros H; [injection H; auto|rewrite H; reflexivity]. Qed.
Definition fp_has_advertised_shape : Prop := forall n u ints, (0 < n)%nat -> (0 < u)%nat -> un_fp_shape [n; u] n ints = inr [n; u].
Theorem C111_single_angle_refuted : ~ fp_has_advertised_shape.
Proof. intros H. specialize (H 1%nat 10%nat false ltac:(lia) ltac:(lia)). discriminate. Qed.
(** with intensities, a single angle makes fp raise *)
Theorem C111_single_angle_intensities u : (1 < u)%nat -> un_fp_shape [1%nat; u] 1 true = inl ValueError.
Proof.
  intros Hu. unfold un_fp_shape, astra_fp_shape, squeeze. cbn [filter Nat.eqb negb]. destruct (Nat.eqb_spec u 1); [lia|]. cbn [negb filter].
  unfold imul_shape, bshape. cbn [rev app bshape_r]. destruct (Nat.eqb_spec u 1); [lia|]. destruct (Nat.eqb_spec u 1); [lia|]. change (1 =? 1)%nat with true. cbn [option_map rev app].
  destruct (list_eq_dec Nat.eq_dec [1%nat; u] [u]); [discriminate|]. reflexivity.
Qed.
Theorem C111_several_angles u n ints : (1 < u)%nat -> (1 < n)%nat -> un_fp_shape [n; u] n ints = inr [n; u].
Proof.
  intros Hu Hn. unfold un_fp_shape, astra_fp_shape, squeeze. cbn [filter]. destruct (Nat.eqb_spec n 1); [lia|]. destruct (Nat.eqb_spec u 1); [lia|]. cbn [negb].
  destruct ints; [|reflexivity]. unfold imul_shape, bshape. cbn [rev app bshape_r]. rewrite Nat.eqb_refl.
  destruct (Nat.eqb_spec u 1); [lia|]. destruct (Nat.eqb_spec u 1); [lia|]. change (1 =? 1)%nat with true. cbn [option_map rev app]. destruct (list_eq_dec Nat.eq_dec [n; u] [n; u]); [reflexivity|congruence].
Qed.
(** the self-attenuation projector: detectors first, then the projection shape -- unless there is a single angle (2-D) *)
Theorem C111_xrf_shape D n u : (1 <= D)%nat -> xrf_fp_shape D n [u] = if Nat.eqb D 1 then (if Nat.eqb n 1 then [u] else [n; u]) else [D; n; u].
Proof.
  intros HD. unfold xrf_fp_shape. destruct D as [|[|D]]; [lia| |].
  - cbn [drop_leading_one List.length Nat.sub ins Nat.eqb]. destruct n as [|[|n]]; reflexivity.
  - cbn [drop_leading_one List.length Nat.sub ins Nat.eqb]. reflexivity.
Qed.

(** * C58: self-attenuation projector *)
(** inner product of multi-detector data *)
Definition ddot (p : xrf) (y z : nat -> arr) : R := rsum (x_D p) (fun d => adot (vwu (x_un p)) (y d) (z d)).
Definition angle_adjoint (p : uncorrected) : Prop := forall a, (a < u_n p)%nat ->
  adjoint_pair (u_vol p) (u_vu p) (un_fp_angle p a) (un_bp_angle p a).
Lemma adot_scal_l s c x y : adot s (fun l => c * x l) y = c * adot s x y.
Proof. unfold adot. rewrite <- bsum_scal. apply bsum_ext. intros; ring. Qed.
Lemma adot_rsum_r s n x (f : nat -> arr) : adot s x (fun l => rsum n (fun i => f i l)) = rsum n (fun i => adot s x (f i)).
Proof.
  unfold adot. rewrite (bsum_ext s _ (fun l => rsum n (fun i => x l * f i l))) by (intros; rewrite rsum_scal; reflexivity). apply bsum_rsum.
Qed.
(** symmetric mode: an adjoint pair, for all maps, weights and numbers of detectors *)
Theorem C58_symmetric_adjoint p x y : (1 <= length (u_vu (x_un p)))%nat -> angle_adjoint (x_un p) -> x_sym p = true ->
  ddot p (xrf_fp p x) y = adot (u_vol (x_un p)) x (xrf_bp p y).
Proof.
  intros H1 Ha Hs. unfold xrf_bp. rewrite Hs. rewrite adot_rsum_r. unfold ddot.
  assert (Hw : (w_axis (x_un p) <= length (u_vu (x_un p)))%nat) by (unfold w_axis; lia).
  rewrite (rsum_ext (x_D p) _ (fun d => rsum (u_n (x_un p)) (fun a => adot (u_vu (x_un p)) (xrf_fp_angle p a x d) (row (w_axis (x_un p)) a (y d))))).
  2:{ intros d Hd. unfold adot at 1, vwu. rewrite bsum_ins by assumption. rewrite bsum_rsum. apply rsum_ext. intros a Ha'. unfold adot. apply bsum_ext. intros l Hl.
      unfold xrf_fp, row. rewrite nth_ins, del_ins by (rewrite (inb_length _ _ Hl); assumption). reflexivity. }
  rewrite rsum_swap. apply rsum_ext. intros a Ha'. unfold xrf_bp_angle. rewrite adot_rsum_r. apply rsum_ext. intros d Hd. rewrite Hs.
  unfold xrf_fp_angle. rewrite adot_scal_l, (Ha a Ha').
  unfold adot. rewrite <- bsum_scal. apply bsum_ext. intros l Hl. ring.
Qed.
(** non-symmetric mode: exactly the back-projection of the uncorrected projector, summed over the detectors: neither the
    attenuation maps nor the detector / angle weights are applied *)
Theorem C58_nonsymmetric_ignores_maps_and_weights p q y : x_sym p = false -> x_sym q = false -> x_un p = x_un q -> x_D p = x_D q ->
  forall v, xrf_bp p y v = xrf_bp q y v.
Proof. intros Hp Hq Hu HD v. unfold xrf_bp. rewrite Hp, Hq, Hu, HD. reflexivity. Qed.
(** so it is not the sum of its own single-angle back-projections, which do apply the weights *)
Definition bp_sums_angles : Prop := forall p y v, bp_consistent (x_un p) -> (forall a, local (u_vu (x_un p)) (u_bpa (x_un p) a)) -> un_ok (x_un p) ->
  inb (u_vol (x_un p)) v ->
  xrf_bp p y v = rsum (u_n (x_un p)) (fun a => xrf_bp_angle p a (fun d => row (w_axis (x_un p)) a (y d)) v).
Theorem C58_bp_weights_refuted : ~ bp_sums_angles.
Proof.
  intros H. set (p := mkX (mkU [1%nat; 2%nat] [2%nat] 1 None None false (fun x => x) (fun y => y) (fun _ x l => x (0%nat :: l)) (fun _ y v => match v with [0%nat; i] => match i with 0%nat => y [0%nat] | 1%nat => y [1%nat] | _ => 0 end | _ => 0 end))
                         1 (fun _ _ _ => 1) (fun _ => 2) (fun _ _ => 1) false).
  specialize (H p (fun _ _ => 1) [0%nat; 0%nat]). cbn in H.
  assert (B : forall y v, inb [1%nat; 2%nat] v -> y v = 0 + match v with [0%nat; i] => match i with 0%nat => row 0 0 y [0%nat] | 1%nat => row 0 0 y [1%nat] | _ => 0 end | _ => 0 end).
  { intros y v Hv. inversion Hv as [|a ? l1 ? Ha Hl1]; subst. inversion Hl1 as [|b ? l2 ? Hb Hl2]; subst. inversion Hl2; subst.
    destruct a; [|lia]. destruct b as [|[|]]; [| |lia]; unfold row; simpl; ring. }
  specialize (H B). 
  assert (Lc : forall a : nat, local [2%nat] (fun y v => match v with [0%nat; i] => match i with 0%nat => y [0%nat] | 1%nat => y [1%nat] | _ => 0 end | _ => 0 end)).
  { intros _ y z Hyz v. destruct v as [|[|a] [|[|[|b]] [|c l]]]; try reflexivity; apply Hyz; repeat constructor. }
  specialize (H Lc). specialize (H (conj (le_n 1) Logic.I)). specialize (H ltac:(repeat constructor)).
  unfold row, xrf_bp_angle, x_w, un_bp_angle, un_bp, int_a, int_w in H. cbn in H. lra.
Qed.
(** non-symmetric mode is adjoint to fp only without corrections *)
Theorem C58_nonsymmetric_adjoint_uncorrected p x y : (1 <= length (u_vu (x_un p)))%nat -> un_ok (x_un p) ->
  angle_adjoint (x_un p) -> bp_consistent (x_un p) -> (forall a, local (u_vu (x_un p)) (u_bpa (x_un p) a)) -> x_sym p = false ->
  (forall a d v, (a < u_n (x_un p))%nat -> (d < x_D p)%nat -> x_w p a d = 1 /\ x_att p a d v = 1) ->
  ddot p (xrf_fp p x) y = adot (u_vol (x_un p)) x (xrf_bp p y).
Proof.
  intros H1 Hok Ha Hb Hloc Hs H.
  set (q := mkX (x_un p) (x_D p) (x_att p) (x_wdet p) (x_wang p) true).
  transitivity (ddot q (xrf_fp q x) y); [reflexivity|]. rewrite (C58_symmetric_adjoint q) by (cbn; auto). cbn [x_un q].
  unfold adot. apply bsum_ext. intros v Hv. f_equal. unfold xrf_bp. rewrite Hs. cbn [x_sym q x_un x_D].
  rewrite (rsum_ext (x_D p) _ (fun d => rsum (u_n (x_un p)) (fun a => un_bp_angle (x_un p) a (row (w_axis (x_un p)) a (y d)) v))) by (intros d Hd; apply C57_bp_is_sum_of_angles; assumption).
  rewrite rsum_swap. apply rsum_ext. intros a Ha'. unfold xrf_bp_angle. apply rsum_ext. intros d Hd. cbn [x_sym q x_att x_un x_D].
  destruct (H a d v Ha' Hd) as [E1 E2]. change (x_w q a d) with (x_w p a d). rewrite E1, E2. ring.
Qed.
(** fp without corrections is the uncorrected projection, on every detector *)
Theorem C58_no_attenuation p x a d l : (forall b, local (u_vol (x_un p)) (fun z => un_fp_angle (x_un p) b z)) -> x_w p a d = 1 ->
  (forall v, inb (u_vol (x_un p)) v -> x_att p a d v = 1) -> xrf_fp_angle p a x d l = un_fp_angle (x_un p) a x l.
Proof. intros Hl Hw Hatt. unfold xrf_fp_angle. rewrite Hw, Rmult_1_l. apply Hl. intros v Hv. rewrite Hatt by assumption. ring. Qed.

(** ** threads *)
Lemma run_sched_in {A} (f : nat -> A) sched : forall s k, (In k sched -> run_sched f sched s k = Some (f k)) /\ (~ In k sched -> run_sched f sched s k = s k).
Proof.
  induction sched as [|j t IH]; intros s k; [split; [intros []|reflexivity]|]. cbn [run_sched]. split.
  - intros [->|Hk].
    + destruct (in_dec Nat.eq_dec k t) as [Hk|Hk]; [apply IH; assumption|]. rewrite (proj2 (IH _ k) Hk). rewrite Nat.eqb_refl. reflexivity.
    + apply IH. assumption.
  - intros Hk. rewrite (proj2 (IH _ k)) by (intros H; apply Hk; right; assumption). destruct (Nat.eqb_spec k j); [subst; exfalso; apply Hk; left; reflexivity|reflexivity].
Qed.
(** in whatever order the workers finish, the assembled list is the serial one *)
Theorem C58_threads_unobservable (A : Type) (f : nat -> A) n sched : Permutation sched (seq 0 n) ->
  executor_map f n sched = map Some (serial_map f n).
Proof.
  intros Hp. unfold executor_map, serial_map. rewrite map_map. apply map_ext_in. intros k Hk.
  apply run_sched_in. apply Permutation_sym in Hp. eapply Permutation_in; eassumption.
Qed.
(** inside the with statement the threaded projector gives the serial result *)
Theorem C58_threaded_inside_with (A : Type) skimage (f : nat -> A) n sched : Permutation sched (seq 0 n) ->
  snd (x_step true skimage f n sched XFp (fst (x_step true skimage f n sched XEnter false))) = snd (x_step false skimage f n sched XFp false).
Proof.
  intros Hp. cbn. unfold xrf_threaded. destruct skimage; cbn; [rewrite C58_threads_unobservable by assumption|]; reflexivity.
Qed.
(** outside of it, the scikit-image backend with the default multi-threading raises *)
Definition fp_works_outside_with : Prop := forall use_mt skimage, exists r, snd (x_step use_mt skimage (fun i => i) 2 [0; 1]%nat XFp false) = Some (inr r).
Theorem C58_outside_with_refuted : ~ fp_works_outside_with.
Proof. intros H. destruct (H true true) as [r E]. discriminate. Qed.

(** * C112: collapse_detectors *)
Lemma bshape_r_refl s : bshape_r s s = Some s.
Proof. induction s as [|n s IH]; [reflexivity|]. simpl. rewrite IH, Nat.eqb_refl. reflexivity. Qed.
Lemma bshape_refl s : bshape s s = Some s.
Proof. unfold bshape. rewrite bshape_r_refl. cbn. rewrite rev_involutive. reflexivity. Qed.
Lemma bshape_r_app s d : bshape_r s (s ++ [d]) = Some (s ++ [d]).
Proof. induction s as [|n s IH]; [reflexivity|]. simpl. rewrite IH, Nat.eqb_refl. reflexivity. Qed.
(** before collapsing, each detector's volume has the volume shape *)
Theorem C112_before vol n D : backend_input_shape vol (n :: D :: vol) = Some vol.
Proof.
  unfold backend_input_shape. cbn [tl]. unfold bshape. cbn [rev]. rewrite bshape_r_app. cbn. rewrite rev_app_distr. cbn. rewrite rev_involutive. reflexivity.
Qed.
(** after collapsing a 2-D configuration the detector axis is gone: the backend is handed one row of the volume *)
Theorem C112_after n D h w : collapse_shape [n; D; h; w] D = Some [n; h; w].
Proof.
  unfold collapse_shape, bshape. cbn [rev app bshape_r]. rewrite Nat.eqb_refl.
  destruct (Nat.eqb_spec w 1) as [->|]; destruct (Nat.eqb_spec h 1) as [->|]; destruct (Nat.eqb_spec n 1) as [->|]; cbn; rewrite ?Nat.eqb_refl; reflexivity.
Qed.
Theorem C112_after_input h w n : backend_input_shape [h; w] [n; h; w] = Some [w].
Proof. unfold backend_input_shape. cbn [tl]. rewrite bshape_refl. reflexivity. Qed.
Definition collapsed_projector_works : Prop := forall n D h w att, (0 < n)%nat -> (0 < D)%nat -> (0 < h)%nat -> (0 < w)%nat ->
  collapse_shape [n; D; h; w] D = Some att -> backend_input_shape [h; w] att = Some [h; w].
Theorem C112_collapse_refuted : ~ collapsed_projector_works.
Proof. intros H. specialize (H 5 2 3 3 [5; 3; 3] ltac:(lia) ltac:(lia) ltac:(lia) ltac:(lia) eq_refl)%nat. discriminate. Qed.
(** for 3-D volumes collapsing fails, unless the number of detectors happens to match the number of slices *)
Theorem C112_collapse_3d n D z h w : (1 < D)%nat -> (1 < z)%nat -> D <> z -> collapse_shape [n; D; z; h; w] D = None.
Proof.
  intros HD Hz Hne. unfold collapse_shape, bshape. cbn [rev app bshape_r].
  destruct (Nat.eqb_spec z D); [congruence|]. destruct (Nat.eqb_spec z 1); [lia|]. destruct (Nat.eqb_spec D 1); [lia|].
  destruct (Nat.eqb D 1); [|destruct (Nat.eqb 1 1)]; reflexivity.
Qed.
