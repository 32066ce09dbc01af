(** Theorems C75 (padded images and lines, refutations) and C131 (sum of absolute differences). *)
From Coq Require Import Reals Lra Lia List ZArith Bool FunctionalExtensionality.
Import ListNotations.
From Verif Require Import Sums Rounding PyErr Arrays Reindex ParamTuningModel ProcPreModel ProcPreProps Fourier FourierBox AlignFitModel AlignFitProps AlignXcProps.
Open Scope R_scope.

(** ** specification: a displacement without wrapping *)
Definition inZ (s : list nat) (z : list Z) : Prop := Forall2 (fun c n => (0 <= c < Z.of_nat n)%Z) z s.
Definition translate (t : list Z) (l : list nat) : list Z := zadd (zl l) t.
(** d shows p displaced by t, and no non-zero sample of p leaves the frame *)
Definition displaced (s : list nat) (t : list Z) (p d : arr) : Prop :=
  (forall l, inb s l -> p l <> 0 -> inZ s (translate t l)) /\
  (forall l m, inb s l -> inb s m -> zl m = translate t l -> d m = p l) /\
  (forall m, inb s m -> (forall l, inb s l -> zl m <> translate t l) -> d m = 0).
Definition dbl (s : list nat) : list nat := map (fun m => 2 * m)%nat s.

(** ** list facts *)
Lemma zl_inj l m : zl l = zl m -> l = m.
Proof. revert m. induction l as [|a l IH]; intros [|b m] E; simpl in E; try discriminate; [reflexivity|]. injection E as E1 E2. f_equal; [lia|now apply IH]. Qed.
Lemma inb_dbl s l : inb s l -> inb (dbl s) l.
Proof. induction 1; simpl; constructor; [lia|assumption]. Qed.
Lemma pos_dbl s : pos s -> pos (dbl s).
Proof. induction 1; simpl; constructor; [lia|assumption]. Qed.
Lemma zl_map_to_nat s z : inZ s z -> zl (map Z.to_nat z) = z.
Proof. induction 1; simpl; [reflexivity|]. f_equal; [lia|assumption]. Qed.
Lemma inZ_inb s z : inZ s z -> inb s (map Z.to_nat z).
Proof. induction 1; simpl; constructor; [lia|assumption]. Qed.
Lemma imod_exact n a i : (i < n)%nat -> (a mod Z.of_nat n = Z.of_nat i)%Z -> imod n a = i.
Proof. intros Hi E. unfold imod. rewrite E. apply Nat2Z.id. Qed.
(** q = l - t on the doubled torus, and q + t inside the frame: then l = q + t *)
Lemma back_forth s : forall l q t, inb (dbl s) l -> length t = length s -> q = tadd (dbl s) l (map Z.opp t) -> inZ s (translate t q) -> zl l = translate t q.
Proof.
  unfold tadd, translate. induction s as [|n s IH]; intros l q t Hl Lt Eq HI; simpl in Hl; inversion Hl; subst; destruct t as [|b t]; simpl in Lt; try lia; [reflexivity|].
  cbn [dbl map zl tor zadd] in HI |- *. inversion HI; subst. f_equal.
  - rewrite imod_of in * by lia. set (N := Z.of_nat (2 * n)) in *.
    assert (HN : (0 < N)%Z) by (unfold N; lia). pose proof (Z.div_mod (Z.of_nat x + - b) N ltac:(lia)) as D. pose proof (Z.mod_pos_bound (Z.of_nat x + - b) N HN).
    assert (Z.of_nat x = ((Z.of_nat x + - b) mod N + b) + N * ((Z.of_nat x + - b) / N))%Z by lia.
    assert (Z.of_nat x < N)%Z by (unfold N; lia). assert (Z.of_nat n <= N)%Z by (unfold N; lia).
    set (k := ((Z.of_nat x + - b) / N)%Z) in *. change (Z.of_nat (n + (n + 0))) with N in *. clearbody k. assert (k = 0)%Z by nia. subst k. lia.
  - apply (IH l0 (tor (dbl s) (zadd (zl l0) (map Z.opp t))) t); [assumption|lia|reflexivity|assumption].
Qed.
Lemma forth_back s : forall l m t, inb s l -> inb (dbl s) m -> length t = length s -> zl m = translate t l -> tadd (dbl s) m (map Z.opp t) = l.
Proof.
  unfold tadd, translate. induction s as [|n s IH]; intros l m t Hl Hm Lt E; simpl in Hm; inversion Hl; inversion Hm; subst; destruct t as [|b t]; simpl in Lt; try lia; [reflexivity|].
  cbn [dbl map zl tor zadd] in E |- *. injection E as E1 E2. f_equal.
  - apply imod_exact; [lia|]. rewrite E1. replace (Z.of_nat x + b + - b)%Z with (Z.of_nat x) by lia. apply Z.mod_small. lia.
  - apply IH; try assumption. lia.
Qed.
Lemma zpad_in s x l : inb s l -> zpad s x l = x l.
Proof. intros H. unfold zpad. now rewrite (proj2 (in_box_inb s l (inb_length _ _ H)) H). Qed.
Lemma zpad_out s x l : length l = length s -> ~ inb s l -> zpad s x l = 0.
Proof. intros L H. unfold zpad. destruct (in_box s l) eqn:E; [|reflexivity]. exfalso. apply H. now apply in_box_inb. Qed.
Lemma inb_dec s l : length l = length s -> inb s l \/ ~ inb s l.
Proof. intros L. destruct (in_box s l) eqn:E; [left; now apply in_box_inb|right]. intros H. apply (in_box_inb s l L) in H. congruence. Qed.
Lemma dbl_length s : length (dbl s) = length s. Proof. apply map_length. Qed.
Lemma displaced_moved s t p d : pos s -> length t = length s -> displaced s t p d -> moved (dbl s) t (zpad s p) (zpad s d).
Proof.
  intros P Lt (H1 & H2 & H3) l Hl. set (q := tadd (dbl s) l (map Z.opp t)).
  assert (Iq : inb (dbl s) q) by (apply tadd_inb; [now apply pos_dbl|exact Hl|rewrite map_length, dbl_length; exact Lt]).
  assert (Lq : length q = length s) by (rewrite (inb_length _ _ Iq); apply dbl_length).
  assert (Ll : length l = length s) by (rewrite (inb_length _ _ Hl); apply dbl_length).
  assert (Zero : (forall j, inb s j -> zl l = translate t j -> p j = 0) -> zpad s d l = 0).
  { intros N. destruct (inb_dec s l Ll) as [I|I]; [|now apply zpad_out]. rewrite zpad_in by exact I.
    destruct (inb_dec s q Lq) as [J|J].
    - destruct (list_eq_dec Z.eq_dec (zl l) (translate t q)) as [E|E].
      + rewrite (H2 q l J I E). apply N; assumption.
      + apply H3; [exact I|]. intros j Hj E'. apply E. unfold q. rewrite (forth_back s j l t) by assumption. exact E'.
    - apply H3; [exact I|]. intros j Hj E'. apply J. unfold q. rewrite (forth_back s j l t) by assumption. exact Hj. }
  destruct (inb_dec s q Lq) as [J|J].
  - rewrite (zpad_in s p q J). destruct (Req_EM_T (p q) 0) as [Z0|N].
    + rewrite Z0. apply Zero. intros j Hj E. pose proof (forth_back s j l t Hj Hl Lt E) as F. fold q in F. now rewrite <- F.
    + pose proof (H1 q J N) as IZ. pose proof (back_forth s l q t Hl Lt eq_refl IZ) as E.
      assert (I : inb s l). { rewrite <- E in IZ. apply inZ_inb in IZ. replace l with (map Z.to_nat (zl l)); [exact IZ|]. apply zl_inj. rewrite (zl_map_to_nat (dbl s)); [reflexivity|].
        clear - Hl. induction Hl; simpl; constructor; [lia|assumption]. }
      rewrite zpad_in by exact I. now apply H2.
  - rewrite (zpad_out s p q Lq J). apply Zero. intros j Hj E. exfalso. apply J. unfold q. rewrite (forth_back s j l t) by assumption. exact Hj.
Qed.

(** ** an image surrounded by as many zeros as it is wide has no period *)
Lemma gap_no_period n j (Q : nat -> Prop) : (0 < j < 2 * n)%nat -> (forall x, Q x -> (x < n)%nat) -> (forall x, Q x -> Q (imod (2 * n) (Z.of_nat x + Z.of_nat j))) -> forall x, ~ Q x.
Proof.
  intros Hj B St. destruct (le_lt_dec j n) as [Le|Lt].
  - assert (H : forall k x, (n - x <= k)%nat -> ~ Q x).
    { induction k as [|k IH]; intros x Hk Hx; pose proof (B x Hx); [lia|].
      pose proof (St x Hx) as S1. rewrite (imod_exact (2 * n) _ (x + j)) in S1 by (try lia; rewrite Z.mod_small; lia). apply (IH (x + j)%nat); [lia|exact S1]. }
    intros x. apply (H (n - x)%nat). lia.
  - assert (H : forall k x, (x <= k)%nat -> ~ Q x).
    { induction k as [|k IH]; intros x Hk Hx; pose proof (B x Hx); pose proof (St x Hx) as S1.
      - rewrite (imod_exact (2 * n) _ (x + j)) in S1 by (try lia; rewrite Z.mod_small; lia). apply B in S1. lia.
      - destruct (le_lt_dec (2 * n) (x + j)).
        + rewrite (imod_exact (2 * n) _ (x + j - 2 * n)) in S1.
          * apply (IH (x + j - 2 * n)%nat); [lia|exact S1].
          * lia.
          * replace (Z.of_nat x + Z.of_nat j)%Z with (Z.of_nat (x + j - 2 * n) + 1 * Z.of_nat (2 * n))%Z by lia. rewrite Z.mod_add by lia. apply Z.mod_small. lia.
        + rewrite (imod_exact (2 * n) _ (x + j)) in S1 by (try lia; rewrite Z.mod_small; lia). apply B in S1. lia. }
    intros x. apply (H x). lia.
Qed.
Lemma nth_tadd s l t a : inb s l -> length t = length s -> (a < length s)%nat -> nth a (tadd s l t) 0%nat = imod (nth a s 0%nat) (Z.of_nat (nth a l 0%nat) + nth a t 0%Z).
Proof.
  unfold tadd. intros H. revert t a. induction H as [|i n l s Hi H IH]; intros [|b t] a Lt Ha; simpl in Lt, Ha; try lia.
  destruct a as [|a]; cbn [zl map zadd tor nth]; [reflexivity|]. apply IH; lia.
Qed.
Lemma nth_dbl s a : nth a (dbl s) 0%nat = (2 * nth a s 0)%nat.
Proof. unfold dbl. rewrite <- (map_nth (fun m => (2 * m)%nat)). reflexivity. Qed.
Lemma all_zero j : (forall a, (a < length j)%nat -> nth a j 0%nat = 0%nat) -> j = repeat 0%nat (length j).
Proof.
  induction j as [|x j IH]; intros H; [reflexivity|]. cbn [length repeat]. f_equal; [apply (H 0%nat); simpl; lia|].
  apply IH. intros a Ha. apply (H (S a)). simpl. lia.
Qed.
Lemma nth_zl a l : nth a (zl l) 0%Z = Z.of_nat (nth a l 0%nat).
Proof. unfold zl. rewrite <- (map_nth Z.of_nat). reflexivity. Qed.
Lemma padded_aperiodic s p : (exists l, inb s l /\ p l <> 0) -> aperiodic (dbl s) (zpad s p).
Proof.
  intros (l0 & I0 & N0) j Hj Hper. rewrite <- (inb_length _ _ Hj). apply all_zero. intros a Ha. rewrite (inb_length _ _ Hj), dbl_length in Ha.
  destruct (Nat.eq_dec (nth a j 0%nat) 0) as [E|E]; [exact E|]. exfalso.
  pose proof (inb_nth _ a _ Hj ltac:(rewrite dbl_length; exact Ha)) as Bj. rewrite nth_dbl in Bj.
  set (Q := fun x => exists l, inb (dbl s) l /\ zpad s p l <> 0 /\ nth a l 0%nat = x).
  assert (Ps : pos (dbl s)) by (eapply pos_inb; exact Hj).
  apply (gap_no_period (nth a s 0%nat) (nth a j 0%nat) Q ltac:(lia)) with (x := nth a l0 0%nat).
  - intros x (l & Il & Nl & <-). assert (Ll : length l = length s) by (rewrite (inb_length _ _ Il); apply dbl_length).
    destruct (inb_dec s l Ll) as [J|J]; [apply inb_nth; [exact J|exact Ha]|]. exfalso. apply Nl. now apply zpad_out.
  - intros x (l & Il & Nl & <-). exists (tadd (dbl s) l (zl j)). split; [apply tadd_inb; [exact Ps|exact Il|rewrite zl_length; now apply inb_length]|]. split; [now rewrite Hper|].
    rewrite nth_tadd; [now rewrite nth_dbl, nth_zl|exact Il|rewrite zl_length; now apply inb_length|rewrite dbl_length; exact Ha].
  - exists l0. split; [now apply inb_dbl|]. split; [now rewrite zpad_in|reflexivity].
Qed.
Lemma signed_unique s t z : length t = length s -> (exists l, inb s l /\ inZ s (translate t l)) -> signed_all (dbl s) t z -> z = t.
Proof.
  intros Lt (l & Il & IZ). unfold translate in IZ. revert l t z Lt Il IZ. induction s as [|n s IH]; intros l t z Lt Il IZ H; destruct t as [|b t]; simpl in Lt; try lia; destruct z as [|c z]; cbn [dbl map signed_all] in H; try contradiction; [reflexivity|].
  destruct H as [[H1 H2] H3]. inversion Il; subst. cbn [zl map zadd] in IZ. inversion IZ; subst. f_equal.
  - pose proof (Z.div_mod c (Z.of_nat (2 * n)) ltac:(lia)). pose proof (Z.div_mod b (Z.of_nat (2 * n)) ltac:(lia)). rewrite H1 in H. 
    set (N := Z.of_nat (2 * n)) in *. assert (c - b = N * (c / N - b / N))%Z by nia. assert (N = 2 * Z.of_nat n)%Z by (unfold N; lia). assert (c / N - b / N = 0)%Z by nia. nia.
  - apply (IH l0 t z); try assumption. lia.
Qed.

(** * C75, padded: for every shape, every non-zero image and every displacement that keeps the image in the frame, the registration
    of volumes returns exactly that displacement; no condition on the image. *)
Theorem C75_padded_volume : forall fit use_rfft nrm eps dec s' n p d t, let s := s' ++ [n] in
  0 < eps -> (forall f, fits fit 3 (centred 3) f) -> length t = length s -> (exists l, inb s l /\ p l <> 0) -> displaced s t p d ->
  fit_shifts_zyx_xc fit true use_rfft nrm eps dec s' n d p = inr (map IZR t).
Proof.
  intros fit use_rfft nrm eps dec s' n p d t s He F Lt (l & Il & Nl) D. assert (P : pos s) by (eapply pos_inb; exact Il).
  assert (ES : map (fun m => (2 * m)%nat) s' ++ [(2 * n)%nat] = dbl s) by (unfold dbl, s; now rewrite map_app).
  unfold fit_shifts_zyx_xc. fold s.
  destruct (C75_finds_shift fit use_rfft nrm eps dec (map (fun m => (2 * m)%nat) s') (2 * n) (zpad s p) (zpad s d) t) as (z & E & Hz); rewrite ?ES.
  - clear -P. induction P; simpl; constructor; [lia|assumption].
  - intros _. exists n. split; [reflexivity|]. unfold pos, s in P. apply Forall_app in P as [_ P]. inversion P; assumption.
  - exact He.
  - now rewrite dbl_length.
  - exact F.
  - now apply displaced_moved.
  - apply padded_aperiodic. now exists l.
  - rewrite ES in Hz. rewrite E. apply (signed_unique s t z Lt) in Hz; [now rewrite Hz|]. exists l. split; [exact Il|]. now apply (proj1 D).
Qed.
(** the same for each line of a sinogram with pad_u *)
Theorem C75_padded_line : forall fit use_rfft nrm eps dec n p d t,
  0 < eps -> (forall f, fits fit 3 (centred 3) f) -> (exists l, inb [n] l /\ p l <> 0) -> displaced [n] [t] p d ->
  fit_shifts_vu_xc fit true use_rfft nrm eps dec [] n d p = inr [IZR t].
Proof. intros. apply (C75_padded_volume fit use_rfft nrm eps dec [] n p d [t]); try assumption. reflexivity. Qed.

Lemma interp_fits f : fits (fun _ _ ys => interp3 ys) 3 (centred 3) f. Proof. apply fit3_exists. Qed.
Definition line (xs : list R) : arr := fun l => nth (nth 0 l 0%nat) xs 0.
Lemma inb1 n l : inb [n] l -> exists i, l = [i] /\ (i < n)%nat.
Proof. intros H. inversion H as [|i m l' s' Hi H']; subst. inversion H'; subst. now exists i. Qed.
Ltac inb1 H i := destruct (inb1 _ _ H) as (i & -> & ?).
Example C75_example : displaced [4%nat] [2%Z] (line [3; 5; 0; 0]) (line [0; 0; 3; 5]) /\ (exists l, inb [4%nat] l /\ line [3; 5; 0; 0] l <> 0).
Proof.
  split; [split; [|split]|].
  - intros l H N. inb1 H i. unfold line in N. cbn [nth] in N. do 2 (destruct i as [|i]; [repeat constructor; simpl; lia|]). exfalso. apply N. do 2 (destruct i as [|i]; [reflexivity|]). lia.
  - intros l m H H' E. inb1 H i. inb1 H' j. unfold translate in E. cbn [zl map zadd] in E. injection E as E. assert (j = i + 2)%nat by lia. subst j.
    do 2 (destruct i as [|i]; [reflexivity|]). lia.
  - intros m H N. inb1 H i. do 2 (destruct i as [|i]; [reflexivity|]). exfalso. apply (N [i]); [constructor; [lia|constructor]|]. unfold translate. cbn [zl map zadd]. f_equal. lia.
  - exists [1%nat]. split; [repeat constructor|]. unfold line. cbn. lra.
Qed.
Example C75_example_periodic : aperiodic [3%nat] (line [1; 2; 3]) /\ moved [3%nat] [1%Z] (line [1; 2; 3]) (line [3; 1; 2]).
Proof.
  split.
  - intros j Hj H. inb1 Hj i. specialize (H [0%nat] ltac:(repeat constructor)). unfold tadd in H. cbn [zl map zadd tor] in H.
    unfold line in H. cbn [nth] in H. do 3 (destruct i as [|i]; [try reflexivity; exfalso; vm_compute imod in H; cbn [nth] in H; lra|]). lia.
  - intros l H. inb1 H i. do 3 (destruct i as [|i]; [reflexivity|]). lia.
Qed.

(** ** the real transform on an odd axis *)
Lemma argmax_first_two cc : cc [0%nat] < cc [1%nat] -> argmax [2%nat] cc = [1%nat].
Proof. intros H. unfold argmax. cbn. destruct (Rlt_dec (cc [0%nat]) (cc [1%nat])); [reflexivity|contradiction]. Qed.
Definition spike0 : arr := line [1; 0; 0].
Definition spike2 : arr := line [0; 0; 1].
Lemma dft_spike0 k : dftN [3%nat] (fun l => RtoC (spike0 l)) [k] = C1.
Proof.
  unfold dftN, cbsum. cbn [bsum rsum]. unfold spike0, line. cbn [nth zl map chi Z.of_nat]. rewrite Z.mul_0_r, w_0.
  apply C_eq; unfold Cmul, conj, RtoC, C1; cbn [fst snd]; ring.
Qed.
Lemma dft_spike2 k : dftN [3%nat] (fun l => RtoC (spike2 l)) [k] = conj (w 3 (Z.of_nat k * 2)).
Proof.
  unfold dftN, cbsum. cbn [bsum rsum]. unfold spike2, line. cbn [nth zl map chi]. change (Z.of_nat 2) with 2%Z.
  apply C_eq; unfold Cmul, conj, RtoC, C1; cbn [fst snd]; ring.
Qed.
Lemma w31 : fst (w 3 1) = - (1 / 2).
Proof.
  unfold w, cis. cbn [fst]. replace (2 * PI * (1 / INR 3)) with (2 * (PI / 3)) by (simpl; field). rewrite cos_2a, cos_PI3, sin_PI3.
  replace (sqrt 3 / 2 * (sqrt 3 / 2)) with (sqrt 3 * sqrt 3 / 4) by field. rewrite sqrt_sqrt by lra. lra.
Qed.
Lemma w32 : fst (w 3 2) = - (1 / 2).
Proof.
  replace (w 3 2) with (w 3 (- (1))) by (apply w_congr; [lia|reflexivity]). rewrite w_neg. unfold conj. cbn [fst]. apply w31.
Qed.
Lemma odd_rfft_value : fit_shifts_vu_xc (fun _ _ ys => interp3 ys) false true NoNorm 1 2 [] 3 spike2 spike0 = inr [1].
Proof.
  pose proof interp_fits as F. unfold fit_shifts_vu_xc, fit_shifts_xc. cbn [app].
  set (cc := xcorr true NoNorm 1 [] 3 (zpad [3%nat] spike2) (zpad [3%nat] spike0)).
  assert (X : forall k, xc_spectrum [3%nat] (zpad [3%nat] spike2) (zpad [3%nat] spike0) [k] = conj (w 3 (Z.of_nat k * 2))).
  { intros k. unfold xc_spectrum. rewrite (dftN_ext _ _ (fun l => RtoC (spike2 l))) by (intros l Hl; now rewrite zpad_in).
    rewrite (dftN_ext _ (fun l => RtoC (zpad [3%nat] spike0 l)) (fun l => RtoC (spike0 l))) by (intros l Hl; now rewrite zpad_in).
    rewrite dft_spike0, dft_spike2, conj_C1. ring. }
  assert (CC : forall i, cc [i] = 1 / 2 * (1 - 1 / 2 * fst (w 2 (Z.of_nat i))) /\ True).
  { intros i. split; [|exact I]. unfold cc, xcorr, irfftnN. cbn [app]. change (3 / 2 + 1)%nat with 2%nat. change (2 * (2 - 1))%nat with 2%nat.
    cbn [size fold_right bsum rsum]. cbn [last hw Nat.eqb orb Nat.sub xc_weight]. rewrite !X. cbn [zl map chi].
    change (Z.of_nat 0) with 0%Z. change (Z.of_nat 1) with 1%Z. rewrite !Z.mul_0_l, !Z.mul_1_l, !w_0.
    pose proof w32 as Q. assert (S2 : snd (w 2 (Z.of_nat i)) = 0).
    { unfold w, cis. cbn [snd]. rewrite <- INR_IZR_INZ. replace (2 * PI * (INR i / INR 2)) with (INR i * PI) by (simpl; field).
      clear. induction i as [|i IH]; [simpl; rewrite Rmult_0_l; apply sin_0|]. rewrite S_INR, Rmult_plus_distr_r, Rmult_1_l, neg_sin. rewrite IH. ring. }
    unfold Cmul, conj, RtoC, C1. cbn [fst snd]. rewrite Q, S2. simpl INR. field. }
  assert (W20 : fst (w 2 (Z.of_nat 0)) = 1) by (change (Z.of_nat 0) with 0%Z; rewrite w_0; reflexivity).
  assert (W21 : fst (w 2 (Z.of_nat 1)) = -1).
  { change (Z.of_nat 1) with 1%Z. unfold w, cis. cbn [fst]. replace (2 * PI * (1 / INR 2)) with PI by (simpl; field). apply cos_PI. }
  assert (C0' : cc [0%nat] = 1 / 4) by (rewrite (proj1 (CC 0%nat)), W20; lra).
  assert (C1' : cc [1%nat] = 3 / 4) by (rewrite (proj1 (CC 1%nat)), W21; lra).
  change (xc_out true [] 3) with [2%nat]. rewrite (argmax_first_two cc) by lra. cbn [size fold_right Nat.mul Nat.add Nat.eqb length seq refine_axes nth].
  destruct (refine_zero (fun _ _ ys => interp3 ys) 2 (peak_line [2%nat] cc [1%nat] 0) (F _)) as [val E].
  - unfold peak_line. cbn [nth set_nth]. vm_compute imod. reflexivity.
  - unfold peak_line. cbn [nth set_nth]. vm_compute imod. lra.
  - rewrite E. change (fftfreq 3 1) with 1%Z. now rewrite Rplus_0_r.
Qed.
(** without padding, the default use_rfft = True returns the OPPOSITE displacement on an axis of odd length: a spike moved by one
    pixel to the left is reported as moved by one pixel to the right *)
Theorem C75_odd_rfft_refuted : exists fit p d, (forall f, fits fit 3 (centred 3) f) /\ moved [3%nat] [(-1)%Z] p d /\ aperiodic [3%nat] p /\
  fit_shifts_vu_xc fit false true NoNorm 1 2 [] 3 d p = inr [1] /\ fit_shifts_vu_xc fit false false NoNorm 1 2 [] 3 d p = inr [-1].
Proof.
  exists (fun _ _ ys => interp3 ys), spike0, spike2. pose proof interp_fits as F.
  assert (M : moved [3%nat] [(-1)%Z] spike0 spike2) by (intros l H; inb1 H i; do 3 (destruct i as [|i]; [reflexivity|]); lia).
  assert (A : aperiodic [3%nat] spike0).
  { intros j Hj H. inb1 Hj i. specialize (H [0%nat] ltac:(repeat constructor)). unfold tadd in H. cbn [zl map zadd tor] in H. unfold spike0, line in H. cbn [nth] in H.
    do 3 (destruct i as [|i]; [try reflexivity; exfalso; vm_compute imod in H; cbn [nth] in H; lra|]). lia. }
  assert (Ep : forall x, zpad [3%nat] x = fun l => if in_box [3%nat] l then x l else 0) by reflexivity.
  assert (M' : moved [3%nat] [(-1)%Z] (zpad [3%nat] spike0) (zpad [3%nat] spike2)).
  { intros l H. rewrite (zpad_in _ _ _ H), (zpad_in _ spike0); [now apply M|]. apply tadd_inb; [repeat constructor|exact H|reflexivity]. }
  assert (A' : aperiodic [3%nat] (zpad [3%nat] spike0)).
  { intros j Hj H. apply A; [exact Hj|]. intros l Hl. pose proof (H l Hl) as E. rewrite !zpad_in in E; [exact E|exact Hl|].
    apply tadd_inb; [repeat constructor|exact Hl|]. rewrite zl_length. now apply inb_length. }
  split; [exact F|]. split; [exact M|]. split; [exact A|]. split.
  - exact odd_rfft_value.
  - destruct (C75_finds_shift (fun _ _ ys => interp3 ys) false NoNorm 1 2 [] 3 (zpad [3%nat] spike0) (zpad [3%nat] spike2) [(-1)%Z]) as (z & E & Hz).
    + repeat constructor.
    + discriminate.
    + lra.
    + reflexivity.
    + exact F.
    + exact M'.
    + exact A'.
    + unfold fit_shifts_vu_xc. cbn [app] in *. rewrite E. destruct z as [|z0 [|]]; cbn [signed_all] in Hz; try tauto. destruct Hz as [[H1 H2] _].
      change (Z.of_nat 3) with 3%Z in *. assert (z0 = -1)%Z. { change (-1 mod 3)%Z with 2%Z in H1. pose proof (Z.div_mod z0 3 ltac:(lia)). lia. } subst. reflexivity.
Qed.

(** the registration only looks at the samples in the frame *)
Lemma xc_ext fit use_rfft nrm eps dec s' n d d' p p' : (forall l, inb (s' ++ [n]) l -> d l = d' l) -> (forall l, inb (s' ++ [n]) l -> p l = p' l) ->
  fit_shifts_xc fit use_rfft nrm eps dec s' n d p = fit_shifts_xc fit use_rfft nrm eps dec s' n d' p'.
Proof.
  intros Hd Hp. assert (X : xc_spectrum (s' ++ [n]) d p = xc_spectrum (s' ++ [n]) d' p').
  { apply functional_extensionality. intros k. unfold xc_spectrum. f_equal; [|f_equal]; apply dftN_ext; intros l Hl; f_equal; auto. }
  unfold fit_shifts_xc, xcorr. now rewrite X.
Qed.

(** ** an axis of length one *)
Lemma refine_only_value_error fit d so s cc pk axes e : refine_axes fit d so s cc pk axes = inl e -> e = ValueError.
Proof.
  induction axes as [|a r IH]; cbn [refine_axes]; [discriminate|]. destruct (Nat.eqb d 0).
  - destruct (refine_axes fit d so s cc pk r); [intros E; apply IH; congruence|discriminate].
  - destruct (refine_max_position_1d fit d 3 None (peak_line so cc pk a)) as [e'|[v val]] eqn:E.
    + intros H. injection H as <-. unfold refine_max_position_1d, refine_with in E. destruct (vertex_of _); [|congruence].
      destruct (Rlt_dec _ _); [|congruence]. destruct (Rlt_dec _ _); congruence.
    + destruct (refine_axes fit d so s cc pk r); [intros H; apply IH; congruence|discriminate].
Qed.
Lemma refine_axes_fail fit d so s cc pk axes a : d <> 0%nat -> In a axes ->
  refine_max_position_1d fit d 3 None (peak_line so cc pk a) = inl ValueError -> refine_axes fit d so s cc pk axes = inl ValueError.
Proof.
  intros Hd. induction axes as [|b r IH]; [intros []|]. intros HI E. destruct (refine_axes fit d so s cc pk (b :: r)) as [e|xs] eqn:Q; [f_equal; now apply refine_only_value_error in Q|].
  exfalso. cbn [refine_axes] in Q. destruct (Nat.eqb_spec d 0); [contradiction|]. destruct HI as [->|HI]; [now rewrite E in Q|].
  rewrite (IH HI E) in Q. destruct (refine_max_position_1d fit d 3 None (peak_line so cc pk b)) as [|[]]; discriminate Q.
Qed.
(** images with a single row cannot be registered with sub-pixel precision: the refinement raises ValueError for every content *)
Theorem C75_single_row_refuted : forall fit use_rfft nrm eps dec s' n d p a, (forall f, fits fit 3 (centred 3) f) -> dec <> 0%nat ->
  (a < length s')%nat -> nth a s' 0%nat = 1%nat -> fit_shifts_xc fit use_rfft nrm eps dec s' n d p = inl ValueError.
Proof.
  intros fit use_rfft nrm eps dec s' n d p a F Hd Ha H1. unfold fit_shifts_xc. destruct (Nat.eqb _ 0); [reflexivity|].
  set (so := xc_out use_rfft s' n). assert (Hn : nth a so 0%nat = 1%nat) by (unfold so, xc_out; destruct use_rfft; rewrite app_nth1 by exact Ha; exact H1).
  apply refine_axes_fail with (a := a); [exact Hd|apply in_seq; unfold so, xc_out; destruct use_rfft; rewrite app_length; lia|].
  apply C74_flat_error; [apply F|..]; unfold peak_line; rewrite Hn; unfold imod; change (Z.of_nat 1) with 1%Z; now rewrite !Z.mod_1_r.
Qed.
(** with the stack in the last axis, the registration of lines fails whatever the data; with the default it uses the axis of the lines *)
Theorem C75_stack_last_refuted : forall w u, xc_u_coords [w; u] (-1) = inl IndexError /\ xc_u_coords [w; u] (-2) = inr (map (fftfreq u) (seq 0 u)).
Proof. intros w u. split; reflexivity. Qed.

(** * C131: sum of absolute differences *)
(** without pad_u (the default) the function raises for every input *)
Theorem C131_default_fails_refuted : forall fit dec n sr data proj, fit_shifts_u_sad fit false dec n sr data proj = inl UnboundLocalError.
Proof. reflexivity. Qed.
(** the rows of a line and of the same line displaced by t pixels, with zero borders *)
Definition row (x : vec) : arr := fun l => x (nth 0 l 0%nat).
Definition zrow (n : nat) (x : vec) (i : Z) : R := if ((0 <=? i) && (i <? Z.of_nat n))%Z%bool then x (Z.to_nat i) else 0.
Lemma zrow_in n x i : (i < n)%nat -> zrow n x (Z.of_nat i) = x i.
Proof. intros H. unfold zrow. destruct (Z.leb_spec 0 (Z.of_nat i)); [|lia]. destruct (Z.ltb_spec (Z.of_nat i) (Z.of_nat n)); [|lia]. cbn [andb]. now rewrite Nat2Z.id. Qed.
Lemma zrow_out n x i : ~ (0 <= i < Z.of_nat n)%Z -> zrow n x i = 0.
Proof. intros H. unfold zrow. destruct (Z.leb_spec 0 i); [|reflexivity]. destruct (Z.ltb_spec i (Z.of_nat n)); [lia|reflexivity]. Qed.
Lemma pad_zero n sr x i : sad_pad false n sr x i = zrow n x (Z.of_nat i - Z.of_nat sr).
Proof.
  unfold sad_pad. destruct (Nat.ltb_spec i sr); [symmetry; apply zrow_out; lia|]. destruct (Nat.ltb_spec i (sr + n)); [|symmetry; apply zrow_out; lia].
  replace (Z.of_nat i - Z.of_nat sr)%Z with (Z.of_nat (i - sr)) by lia. symmetry. apply zrow_in. lia.
Qed.
Lemma pad_edge n sr x i : x 0%nat = 0 -> x (n - 1)%nat = 0 -> sad_pad true n sr x i = zrow n x (Z.of_nat i - Z.of_nat sr).
Proof.
  intros H0 H1. unfold sad_pad. destruct (Nat.ltb_spec i sr); [rewrite H0; symmetry; apply zrow_out; lia|].
  destruct (Nat.ltb_spec i (sr + n)); [|rewrite H1; symmetry; apply zrow_out; lia].
  replace (Z.of_nat i - Z.of_nat sr)%Z with (Z.of_nat (i - sr)) by lia. symmetry. apply zrow_in. lia.
Qed.
(** [data] is [proj] displaced by t, nothing leaves the frame, and the displaced line vanishes at both ends *)
Definition displaced_row (n : nat) (t : Z) (proj data : vec) : Prop :=
  (forall i, (i < n)%nat -> proj i <> 0 -> (0 <= Z.of_nat i + t < Z.of_nat n)%Z) /\
  (forall i, (i < n)%nat -> data i = zrow n proj (Z.of_nat i - t)) /\ data 0%nat = 0 /\ data (n - 1)%nat = 0.
Section sad.
  Context (n sr : nat) (t : Z) (proj data : vec) (D : displaced_row n t proj data) (NZ : exists i, (i < n)%nat /\ proj i <> 0).
  Let N := (n + 2 * sr)%nat.
  (* the padded projection on the circle *)
  Definition sad_circle (z : Z) : R := sad_pad false n sr proj (imod N z).
  Lemma N_pos : (0 < N)%nat. Proof. destruct NZ as (i & Hi & _). unfold N. lia. Qed.
  Lemma circle_period z k : sad_circle (z + k * Z.of_nat N) = sad_circle z.
  Proof. unfold sad_circle. f_equal. apply imod_mod; [apply N_pos|]. apply Z.mod_add. pose proof N_pos. lia. Qed.
  Lemma circle_in i : (i < N)%nat -> sad_circle (Z.of_nat i) = zrow n proj (Z.of_nat i - Z.of_nat sr).
  Proof. intros H. unfold sad_circle. rewrite imod_small by exact H. apply pad_zero. Qed.
  Lemma t_small : (- Z.of_nat n < t < Z.of_nat n)%Z.
  Proof. destruct NZ as (i & Hi & H). destruct D as (D1 & _). specialize (D1 i Hi H). lia. Qed.
  (* (a) the displaced line is the rotated padded projection *)
  Lemma data_circle i : (- Z.of_nat sr <= t <= Z.of_nat sr)%Z -> (i < N)%nat -> sad_pad true n sr data i = sad_circle (Z.of_nat i - t).
  Proof.
    intros Ht Hi. destruct D as (D1 & D2 & D3 & D4). rewrite pad_edge by assumption.
    assert (Far : forall j, (0 <= j < Z.of_nat n)%Z -> ~ (0 <= j + t < Z.of_nat n)%Z -> zrow n proj j = 0).
    { intros j Hj Hn. destruct (Req_EM_T (proj (Z.to_nat j)) 0) as [E|E]; [|exfalso; apply Hn; specialize (D1 (Z.to_nat j) ltac:(lia) E); lia].
      replace j with (Z.of_nat (Z.to_nat j)) by lia. rewrite zrow_in by lia. exact E. }
    assert (LHS : zrow n data (Z.of_nat i - Z.of_nat sr) = zrow n proj (Z.of_nat i - Z.of_nat sr - t)).
    { destruct (Z_lt_dec (Z.of_nat i - Z.of_nat sr) 0) as [L|L]; [|destruct (Z_lt_dec (Z.of_nat i - Z.of_nat sr) (Z.of_nat n)) as [L'|L']].
      - rewrite zrow_out by lia. destruct (Z_lt_dec (Z.of_nat i - Z.of_nat sr - t) 0); [symmetry; apply zrow_out; lia|].
        destruct (Z_lt_dec (Z.of_nat i - Z.of_nat sr - t) (Z.of_nat n)); [symmetry; apply Far; lia|symmetry; apply zrow_out; lia].
      - replace (Z.of_nat i - Z.of_nat sr)%Z with (Z.of_nat (i - sr)) by lia. rewrite zrow_in by lia. apply D2. lia.
      - rewrite zrow_out by lia. destruct (Z_lt_dec (Z.of_nat i - Z.of_nat sr - t) 0); [symmetry; apply zrow_out; lia|].
        destruct (Z_lt_dec (Z.of_nat i - Z.of_nat sr - t) (Z.of_nat n)); [symmetry; apply Far; lia|symmetry; apply zrow_out; lia]. }
    rewrite LHS. pose proof t_small as Ts.
    destruct (Z_lt_dec (Z.of_nat i - t) 0) as [L|L]; [|destruct (Z_lt_dec (Z.of_nat i - t) (Z.of_nat N)) as [L'|L']].
    - rewrite <- (circle_period _ 1). rewrite zrow_out by lia. replace (Z.of_nat i - t + 1 * Z.of_nat N)%Z with (Z.of_nat (Z.to_nat (Z.of_nat i - t + Z.of_nat N))) by lia.
      rewrite circle_in by (unfold N in *; lia). symmetry. apply zrow_out. unfold N in *. lia.
    - replace (Z.of_nat i - t)%Z with (Z.of_nat (Z.to_nat (Z.of_nat i - t))) by lia. rewrite circle_in by lia. f_equal. lia.
    - rewrite <- (circle_period _ (-1)). rewrite zrow_out by (unfold N in *; lia). replace (Z.of_nat i - t + -1 * Z.of_nat N)%Z with (Z.of_nat (Z.to_nat (Z.of_nat i - t - Z.of_nat N))) by lia.
      rewrite circle_in by (unfold N in *; lia). symmetry. apply zrow_out. unfold N in *. lia.
  Qed.
  Definition sad_dist (k : Z) : R := rsum N (fun i => Rabs (sad_circle (Z.of_nat i) - sad_circle (Z.of_nat i - k))).
  Lemma rsum_circle f (c : Z) : (forall z k, f (z + k * Z.of_nat N)%Z = f z) -> rsum N (fun i => f (Z.of_nat i + c)%Z) = rsum N (fun i => f (Z.of_nat i)).
  Proof.
    intros P. pose proof N_pos as HN.
    pose proof (bsum_torus [N] (fun l => f (Z.of_nat (nth 0 l 0%nat))) [c] ltac:(constructor; [exact HN|constructor]) eq_refl) as Q. cbn [bsum nth] in Q.
    rewrite <- Q. apply rsum_ext. intros i Hi. unfold tadd. cbn [zl map zadd tor nth].
    pose proof (Z.div_mod (Z.of_nat i + c) (Z.of_nat N) ltac:(lia)) as Dm. rewrite imod_of by exact HN.
    rewrite <- (P ((Z.of_nat i + c) mod Z.of_nat N)%Z ((Z.of_nat i + c) / Z.of_nat N)%Z). f_equal. lia.
  Qed.
  Lemma diff_dist s : (- Z.of_nat sr <= t <= Z.of_nat sr)%Z -> sad_diff n sr data proj s = sad_dist (s - t).
  Proof.
    intros Ht. unfold sad_diff, sad_dist. fold N.
    rewrite (rsum_ext N _ (fun i => Rabs (sad_circle (Z.of_nat i + - t) - sad_circle (Z.of_nat i + - t - (s - t))))).
    - apply (rsum_circle (fun z => Rabs (sad_circle z - sad_circle (z - (s - t))))). intros z k. rewrite circle_period. replace (z + k * Z.of_nat N - (s - t))%Z with (z - (s - t) + k * Z.of_nat N)%Z by lia.
      now rewrite circle_period.
    - intros i Hi. rewrite data_circle by assumption. change (n + 2 * sr)%nat with N. change (sad_pad false n sr proj (imod N (Z.of_nat i - s))) with (sad_circle (Z.of_nat i - s)).
      replace (Z.of_nat i + - t - (s - t))%Z with (Z.of_nat i - s)%Z by lia. reflexivity.
  Qed.
  Lemma dist_sym k : sad_dist (- k) = sad_dist k.
  Proof.
    unfold sad_dist. transitivity (rsum N (fun i => Rabs (sad_circle (Z.of_nat i + k) - sad_circle (Z.of_nat i)))).
    - apply rsum_ext. intros i Hi. rewrite <- Rabs_Ropp. f_equal. replace (Z.of_nat i - - k)%Z with (Z.of_nat i + k)%Z by lia. ring.
    - rewrite <- (rsum_circle (fun z => Rabs (sad_circle z - sad_circle (z - k))) k).
      + apply rsum_ext. intros i Hi. f_equal. do 2 f_equal. lia.
      + intros z j. rewrite circle_period. replace (z + j * Z.of_nat N - k)%Z with (z - k + j * Z.of_nat N)%Z by lia. now rewrite circle_period.
  Qed.
  Lemma dist_nonneg k : 0 <= sad_dist k. Proof. apply rsum_nonneg. intros. apply Rabs_pos. Qed.
  Lemma dist_0 : sad_dist 0 = 0.
  Proof. unfold sad_dist. rewrite (rsum_ext N _ (fun _ => 0)); [apply rsum_0|]. intros i Hi. rewrite Z.sub_0_r, Rminus_diag_eq by reflexivity. apply Rabs_R0. Qed.
  (* (b) no other rotation within the searched range leaves it unchanged *)
  Lemma dist_pos k : (0 < Z.abs k <= 2 * Z.of_nat sr)%Z -> 0 < sad_dist k.
  Proof.
    assert (H : forall k, (0 < k <= 2 * Z.of_nat sr)%Z -> 0 < sad_dist k).
    { intros j Hj. destruct (dist_nonneg j) as [L|E]; [exact L|exfalso]. pose proof N_pos as HN.
      assert (Z0 : forall i, (i < N)%nat -> sad_circle (Z.of_nat i) = sad_circle (Z.of_nat i - j)).
      { intros i Hi. pose proof (rsum_nonneg_zero N (fun i => Rabs (sad_circle (Z.of_nat i) - sad_circle (Z.of_nat i - j))) (fun _ _ => Rabs_pos _) (eq_sym E) i Hi) as Q. cbv beta in Q.
        destruct (Req_EM_T (sad_circle (Z.of_nat i) - sad_circle (Z.of_nat i - j)) 0); [lra|]. exfalso. now apply (Rabs_no_R0 _ n0). }
      (* walk to the right: the value at i + j equals the value at i *)
      assert (St : forall m x, (n - x <= m)%nat -> (x < n)%nat -> proj x = 0).
      { induction m as [|m IH]; intros x Hm Hx; [lia|].
        destruct (le_lt_dec N (x + sr + Z.to_nat j)) as [O|B].
        { assert (B : (x + sr + Z.to_nat j - N < N)%nat) by (unfold N in *; lia). pose proof (Z0 _ B) as Q. rewrite <- (circle_period (Z.of_nat (x + sr + Z.to_nat j - N) - j) 1) in Q.
          replace (Z.of_nat (x + sr + Z.to_nat j - N) - j + 1 * Z.of_nat N)%Z with (Z.of_nat (x + sr)) in Q by lia.
          rewrite !circle_in in Q by (unfold N in *; lia).
          replace (Z.of_nat (x + sr) - Z.of_nat sr)%Z with (Z.of_nat x) in Q by lia. rewrite zrow_in in Q by exact Hx. rewrite <- Q. apply zrow_out. unfold N in *. lia. }
        pose proof (Z0 _ B) as Q.
        replace (Z.of_nat (x + sr + Z.to_nat j) - j)%Z with (Z.of_nat (x + sr)) in Q by lia. rewrite !circle_in in Q by lia.
        replace (Z.of_nat (x + sr) - Z.of_nat sr)%Z with (Z.of_nat x) in Q by lia. rewrite zrow_in in Q by exact Hx. rewrite <- Q.
        destruct (le_lt_dec n (x + Z.to_nat j)); [apply zrow_out; lia|].
        replace (Z.of_nat (x + sr + Z.to_nat j) - Z.of_nat sr)%Z with (Z.of_nat (x + Z.to_nat j)) by lia. rewrite zrow_in by lia. apply IH; lia. }
      destruct NZ as (i & Hi & H). apply H. apply (St (n - i)%nat); lia. }
    intros Hk. destruct (Z_lt_dec k 0); [rewrite <- dist_sym; apply H; lia|apply H; lia].
  Qed.
End sad.
Lemma fftfreq_imod sr (t : Z) : (- Z.of_nat sr <= t <= Z.of_nat sr)%Z -> fftfreq (2 * sr + 1) (imod (2 * sr + 1) t) = t.
Proof.
  intros H. destruct (fftfreq_signed (2 * sr + 1) t ltac:(lia)) as [H1 H2]. set (z := fftfreq _ _) in *.
  pose proof (Z.div_mod z (Z.of_nat (2 * sr + 1)) ltac:(lia)). pose proof (Z.div_mod t (Z.of_nat (2 * sr + 1)) ltac:(lia)). rewrite H1 in H0.
  set (M := Z.of_nat (2 * sr + 1)) in *. assert (M = 2 * Z.of_nat sr + 1)%Z by (unfold M; lia). assert (z - t = M * (z / M - t / M))%Z by nia. assert (z / M - t / M = 0)%Z by nia. nia.
Qed.
Lemma fftfreq_inj n i j : (i < n)%nat -> (j < n)%nat -> fftfreq n i = fftfreq n j -> i = j.
Proof. intros Hi Hj. unfold fftfreq. destruct (Nat.ltb_spec i ((n - 1) / 2 + 1)), (Nat.ltb_spec j ((n - 1) / 2 + 1)); lia. Qed.
Lemma fftfreq_range sr i : (i < 2 * sr + 1)%nat -> (- Z.of_nat sr <= fftfreq (2 * sr + 1) i <= Z.of_nat sr)%Z.
Proof. intros Hi. pose proof (fftfreq_signed (2 * sr + 1) (Z.of_nat i) ltac:(lia)) as [_ H]. rewrite imod_small in H by exact Hi. lia. Qed.
(** with pad_u, every displacement smaller than the search range is found exactly; the displacement equal to the search range is
    found exactly without the sub-pixel refinement *)
Theorem C131_finds_shift : forall fit dec n sr t proj data, (forall f, fits fit 3 (centred 3) f) ->
  displaced_row n t proj data -> (exists i, (i < n)%nat /\ proj i <> 0) ->
  (Z.abs t < Z.of_nat sr)%Z \/ (dec = 0%nat /\ (Z.abs t <= Z.of_nat sr)%Z) ->
  fit_shifts_u_sad fit true dec n sr data proj = inr (IZR t).
Proof.
  intros fit dec n sr t proj data F D NZ Ht. assert (Ht' : (- Z.of_nat sr <= t <= Z.of_nat sr)%Z) by lia.
  unfold fit_shifts_u_sad. cbn [negb]. set (ns := (2 * sr + 1)%nat). set (cc := fun l : list nat => - sad_diff n sr data proj (fftfreq ns (nth 0 l 0%nat))).
  assert (CC : forall l, cc l = - sad_dist n sr proj (fftfreq ns (nth 0 l 0%nat) - t)) by (intros l; unfold cc; now rewrite (diff_dist n sr t proj data D NZ) by exact Ht').
  assert (AM : argmax [ns] cc = [imod ns t]).
  { apply argmax_unique; [constructor; [apply imod_lt; unfold ns; lia|constructor]|]. intros l Hl Hne. destruct (inb1 _ _ Hl) as (i & -> & Hi).
    rewrite !CC. cbn [nth]. unfold ns. rewrite (fftfreq_imod sr t Ht'). fold ns. rewrite Z.sub_diag, dist_0.
    enough (0 < sad_dist n sr proj (fftfreq ns i - t)) by lra. pose proof (fftfreq_range sr i Hi) as Hr. fold ns in Hr. apply (dist_pos n sr proj NZ).
    assert (fftfreq ns i <> t); [|lia]. intros E. apply Hne. f_equal. apply (fftfreq_inj ns); [exact Hi|apply imod_lt; unfold ns; lia|]. rewrite E. symmetry. unfold ns. now apply fftfreq_imod. }
  rewrite AM. cbn [refine_axes nth]. assert (Ft : fftfreq ns (imod ns t) = t) by (unfold ns; now apply fftfreq_imod). rewrite Ft.
  destruct (Nat.eqb_spec dec 0) as [->|Hd]; [reflexivity|]. assert (Hs : (Z.abs t < Z.of_nat sr)%Z) by lia.
  assert (PL : forall k, (-1 <= k <= 1)%Z -> cc (set_nth 0 (imod (nth 0 [ns] 0%nat) (Z.of_nat (nth 0 [imod ns t] 0%nat) + k)) [imod ns t]) = - sad_dist n sr proj k).
  { intros k Hk. cbn [nth set_nth]. rewrite CC. cbn [nth]. do 2 f_equal. replace (imod ns (Z.of_nat (imod ns t) + k)) with (imod ns (t + k)).
    - unfold ns. rewrite fftfreq_imod by lia. lia.
    - apply imod_mod; [unfold ns; lia|]. rewrite imod_of by (unfold ns; lia). now rewrite Zplus_mod_idemp_l. }
  destruct (refine_zero fit dec (peak_line [ns] cc [imod ns t] 0) (F _)) as [val E].
  - unfold peak_line. rewrite !PL by lia. change (Z.of_nat 0 - 1)%Z with (- (1))%Z. change (Z.of_nat 2 - 1)%Z with 1%Z. now rewrite (dist_sym n sr proj NZ).
  - unfold peak_line. rewrite !PL by lia. change (Z.of_nat 1 - 1)%Z with 0%Z. rewrite dist_0.
    enough (0 < sad_dist n sr proj (Z.of_nat 0 - 1)) by lra. apply (dist_pos n sr proj NZ). change (Z.of_nat 0 - 1)%Z with (-1)%Z. lia.
  - rewrite E, Rplus_0_r. reflexivity.
Qed.
Definition rowv (xs : list R) : vec := fun i => nth i xs 0.
Example C131_example : displaced_row 5 1 (rowv [0; 2; 7; 0; 0]) (rowv [0; 0; 2; 7; 0]) /\ (exists i, (i < 5)%nat /\ rowv [0; 2; 7; 0; 0] i <> 0).
Proof.
  split; [|exists 1%nat; split; [lia|unfold rowv; cbn [nth]; lra]]. split; [|split; [|split; reflexivity]].
  - intros i Hi N. destruct i as [|[|[|i]]]; [exfalso; apply N; reflexivity|lia|lia|]. exfalso. apply N. do 2 (destruct i as [|i]; [reflexivity|]). lia.
  - intros i Hi. do 5 (destruct i as [|i]; [reflexivity|]). lia.
Qed.
(** plain vectors have no transformed axis left when their only axis is the stack axis: the lookup of the coordinates fails *)
Theorem C75_vector_refuted : forall u, xc_u_coords [u] 0 = inl IndexError /\ xc_u_coords [u] (-1) = inl IndexError.
Proof. split; reflexivity. Qed.
