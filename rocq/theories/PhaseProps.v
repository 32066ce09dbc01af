(** Phase retrieval (C91). *)
From Coq Require Import Reals Lra Lia List ZArith String Bool.
From Verif Require Import Sums PyErr Arrays Reindex Fourier FourierBox AlignFitModel AlignMiscProps AlignMarkerProps GhostScaleProps PhysicsModel PhaseModel.
Import ListNotations.
Open Scope R_scope.

(** ** the inverse in the other direction *)
Lemma conj_conj z : conj (conj z) = z. Proof. apply C_eq; unfold conj; cbn [fst snd]; ring. Qed.
Lemma conj_RtoC r : conj (RtoC r) = RtoC r. Proof. apply C_eq; unfold conj, RtoC; cbn [fst snd]; ring. Qed.
Lemma idftN_conj s X l : idftN s X l = RtoC (/ INR (size s)) *c conj (dftN s (fun k => conj (X k)) l).
Proof.
  unfold idftN, dftN. f_equal. rewrite cbsum_conj. apply cbsum_ext. intros k _. rewrite conj_mul, !conj_conj, chi_sym. reflexivity.
Qed.
Lemma dftN_idftN s X k : inb s k -> dftN s (idftN s X) k = X k.
Proof.
  intros I. transitivity (conj (idftN s (dftN s (fun k => conj (X k))) k)); [|rewrite idftN_dftN by exact I; apply conj_conj].
  unfold idftN at 2. rewrite conj_mul, conj_RtoC, cbsum_conj. unfold dftN at 1. rewrite <- cbsum_scal. apply cbsum_ext. intros l _. rewrite idftN_conj, conj_mul, chi_sym. ring.
Qed.
(** ** the filter *)
Lemma freq_sq_nonneg s k pix : 0 <= freq_sq s k pix.
Proof. unfold freq_sq. induction (combine s k) as [|p l IH]; unfold lsum in *; cbn [fold_right]; [lra|]. pose proof (pow2_ge_0 (IZR (fftfreq (fst p) (snd p)) / (INR (fst p) * pix))). lra. Qed.
Lemma freq_sq_0 s pix : freq_sq s (repeat 0%nat (List.length s)) pix = 0.
Proof.
  unfold freq_sq. induction s as [|n s IH]; [reflexivity|]. cbn [List.length repeat combine]. unfold lsum in *. cbn [fold_right fst snd]. rewrite IH.
  unfold fftfreq. destruct (Nat.ltb_spec 0 ((n - 1) / 2 + 1)); [|lia]. cbn [Z.of_nat]. unfold Rdiv. rewrite Rmult_0_l. ring.
Qed.
Lemma freq_sq_tneg s k pix : inb s k -> freq_sq s (tneg s k) pix = freq_sq s k pix.
Proof.
  unfold freq_sq. induction 1 as [|i n k s Hi I IH]; [reflexivity|]. unfold tneg in *. cbn [zl map tor combine]. unfold lsum in *. cbn [fold_right fst snd]. fold (zl k). rewrite IH. f_equal.
  pose proof (fftfreq_neg_sq n (Z.of_nat i) ltac:(lia)) as E. rewrite (imod_small n i Hi) in E. apply (f_equal IZR) in E. rewrite !mult_IZR in E.
  unfold Rdiv. rewrite !Rpow_mult_distr. replace (IZR (fftfreq n (imod n (- Z.of_nat i))) ^ 2) with (IZR (fftfreq n i) ^ 2) by (cbn [pow]; lra). reflexivity.
Qed.
Theorem C91_filter_types : forall name, (exists t, prop_type_of name = inr t) <-> lower name = "ctf"%string \/ lower name = "tie"%string.
Proof.
  intros name. unfold prop_type_of. destruct (String.eqb_spec (lower name) "ctf") as [E|E]; [split; eauto|]. destruct (String.eqb_spec (lower name) "tie") as [F|F]; [split; eauto|]. split; [intros [? X]; discriminate|tauto].
Qed.
Theorem C91_response_at_zero : forall t s pix dist wl db, prop_filter t s pix dist wl db (repeat 0%nat (List.length s)) = 1.
Proof. intros. unfold prop_filter, ctf_response, tie_response. rewrite freq_sq_0. destruct t; rewrite !Rmult_0_r; [rewrite cos_0, sin_0|]; ring. Qed.
Theorem C91_tie_never_vanishes : forall s pix dist wl db k, 0 <= db * dist * wl -> 1 <= prop_filter TIE s pix dist wl db k.
Proof.
  intros s pix dist wl db k H. cbn [prop_filter]. unfold tie_response. pose proof (freq_sq_nonneg s k pix). pose proof PI_RGT_0.
  assert (0 <= db * dist * wl * PI * freq_sq s k pix); [|lra]. apply Rmult_le_pos; [|assumption]. apply Rmult_le_pos; lra.
Qed.
(** tie and ctf agree to first order: for a small phase step the two filters differ by at most a second-order term (here: same derivative at zero) *)
Theorem C91_same_derivative : forall k2 wl db, derivable_pt_lim (fun dist => tie_response k2 dist wl db) 0 (db * wl * PI * k2) /\ derivable_pt_lim (fun dist => ctf_response k2 dist wl db) 0 (db * wl * PI * k2).
Proof.
  intros k2 wl db. split.
  - unfold tie_response. intros eps He. exists (mkposreal 1 Rlt_0_1). intros h Hh _. replace ((1 + db * (0 + h) * wl * PI * k2 - (1 + db * 0 * wl * PI * k2)) / h - db * wl * PI * k2) with 0 by (field; exact Hh). now rewrite Rabs_R0.
  - unfold ctf_response. set (q := wl * PI * k2).
    assert (L : derivable_pt_lim (fun d => d * wl * PI * k2) 0 q). { intros eps He. exists (mkposreal 1 Rlt_0_1). intros h Hh _. unfold q. replace (((0 + h) * wl * PI * k2 - 0 * wl * PI * k2) / h - wl * PI * k2) with 0 by (field; exact Hh). now rewrite Rabs_R0. }
    assert (Z : 0 * wl * PI * k2 = 0) by ring.
    assert (A : derivable_pt_lim (comp cos (fun d => d * wl * PI * k2)) 0 (- sin 0 * q)) by (apply derivable_pt_lim_comp; [exact L|rewrite Z; apply derivable_pt_lim_cos]).
    assert (B : derivable_pt_lim (comp sin (fun d => d * wl * PI * k2)) 0 (cos 0 * q)) by (apply derivable_pt_lim_comp; [exact L|rewrite Z; apply derivable_pt_lim_sin]).
    pose proof (derivable_pt_lim_scal _ db _ _ B) as B'. pose proof (derivable_pt_lim_plus _ _ _ _ _ A B') as P. rewrite sin_0, cos_0 in P.
    replace (db * wl * PI * k2) with (- 0 * q + db * (1 * q)) by (unfold q; ring). exact P.
Qed.
(** refuted: the ctf filter can vanish: for every material and every even length there is a distance at which the Nyquist frequency is lost, so that
    apply_propagation_filter divides by zero *)
Theorem C149_ctf_vanishes_refuted : forall db m pix wl, (0 < m)%nat -> 0 < pix -> 0 < wl -> exists dist, 0 < dist /\ prop_filter CTF [2 * m]%nat pix dist wl db [m] = 0.
Proof.
  intros db m pix wl Hm Hp Hw. pose proof PI_RGT_0 as HP. set (st := atan db + PI / 2). assert (Hst : 0 < st) by (unfold st; pose proof (atan_bound db); lra).
  exists (st * (4 * pix ^ 2) / (wl * PI)). assert (0 < pix ^ 2) by (apply pow_lt; lra). split; [apply Rdiv_lt_0_compat; [nra|now apply Rmult_lt_0_compat]|].
  cbn [prop_filter]. unfold ctf_response.
  assert (K : freq_sq [2 * m]%nat [m] pix = / (4 * pix ^ 2)).
  { unfold freq_sq, lsum. cbn [combine fold_right fst snd]. unfold fftfreq. assert (M : ((2 * m - 1) / 2 = m - 1)%nat). { symmetry. apply (Nat.div_unique _ _ _ 1); lia. }
    rewrite M. destruct (Nat.ltb_spec m (m - 1 + 1)); [lia|]. replace (Z.of_nat m - Z.of_nat (2 * m))%Z with (- Z.of_nat m)%Z by lia. rewrite opp_IZR, <- INR_IZR_INZ, mult_INR. cbn [INR].
    assert (0 < INR m) by (apply lt_0_INR; lia). field. lra. }
  rewrite K. replace (st * (4 * pix ^ 2) / (wl * PI) * wl * PI * / (4 * pix ^ 2)) with st by (field; lra). unfold st.
  rewrite (Rplus_comm (atan db)). rewrite <- cos_sin. rewrite cos_plus, cos_PI2, sin_PI2.
  assert (Cp : 0 < cos (atan db)) by (pose proof (atan_bound db); apply cos_gt_0; lra). pose proof (tan_atan db) as T. unfold tan in T.
  assert (E : sin (atan db) = db * cos (atan db)) by (rewrite <- T at 2; field; lra). rewrite E. ring.
Qed.

(** ** the padding *)
Lemma pad_shape_eq s : pad_shape s = map (fun n => (2 * n)%nat) s.
Proof. unfold pad_shape, pad_before. apply map_ext. intros n. assert (n / 2 <= n)%nat by (apply Nat.div_le_upper_bound; lia). lia. Qed.
Lemma pos_pad s : pos s -> pos (pad_shape s).
Proof. rewrite pad_shape_eq. unfold pos. intros H. apply Forall_map. eapply Forall_impl; [|exact H]. cbn. intros; lia. Qed.
Lemma shift_length s : List.length (prop_shift s) = List.length (pad_shape s). Proof. unfold prop_shift, pad_shape. now rewrite !map_length. Qed.
(** shifting back by the padding, the image is in the corner *)
Lemma pad_corner s l : inb s l -> edge_idx s (tadd (pad_shape s) l (prop_shift s)) = l.
Proof.
  unfold tadd, pad_shape, prop_shift. induction 1 as [|i n l s Hi I IH]; [reflexivity|]. cbn [map zl zadd tor edge_idx]. f_equal; [|exact IH].
  assert (Hb : (pad_before n + i < pad_before n + n + n / 2)%nat) by lia. replace (Z.of_nat i + Z.of_nat (pad_before n))%Z with (Z.of_nat (pad_before n + i)) by lia. rewrite imod_small by exact Hb. lia.
Qed.
(** the periodic extension by replicated borders: half of the extension continues the far border, the other half precedes the near one *)
Definition border (n i : nat) : nat := if Nat.ltb i n then i else if Nat.ltb i (n + n / 2) then (n - 1)%nat else 0%nat.
Definition extended (s : list nat) (x : arr) : arr := fun l => x (map (fun p => border (fst p) (snd p)) (combine s l)).
Lemma pad_all s l : inb (map (fun n => (2 * n)%nat) s) l -> edge_idx s (tadd (pad_shape s) l (prop_shift s)) = map (fun p => border (fst p) (snd p)) (combine s l).
Proof.
  rewrite pad_shape_eq. unfold tadd, prop_shift. revert l. induction s as [|n s IH]; intros [|i l] I; inversion I; subst; try reflexivity. cbn [map zl zadd tor edge_idx combine fst snd]. f_equal; [|now apply IH].
  replace (Z.of_nat i + Z.of_nat (pad_before n))%Z with (Z.of_nat (pad_before n + i)) by lia. assert (D : (n / 2 <= n)%nat) by (apply Nat.div_le_upper_bound; lia).
  unfold border. destruct (Nat.ltb_spec i n) as [L|L].
  - rewrite imod_small by (unfold pad_before; lia). lia.
  - destruct (Nat.ltb_spec i (n + n / 2)) as [L2|L2].
    + rewrite imod_small by (unfold pad_before; lia). lia.
    + assert (E : imod (2 * n) (Z.of_nat (pad_before n + i)) = (pad_before n + i - 2 * n)%nat).
      { rewrite (imod_mod (2 * n) _ (Z.of_nat (pad_before n + i - 2 * n))); [apply imod_small; unfold pad_before; lia|lia|]. rewrite Nat2Z.inj_sub by (unfold pad_before; lia).
        replace (Z.of_nat (pad_before n + i) - Z.of_nat (2 * n))%Z with (Z.of_nat (pad_before n + i) + (-1) * Z.of_nat (2 * n))%Z by lia. now rewrite Z.mod_add by lia. }
      rewrite E. unfold pad_before. lia.
Qed.
Lemma inb_pad s l : inb s l -> inb (pad_shape s) l.
Proof. unfold pad_shape. induction 1; cbn [map]; constructor; [lia|assumption]. Qed.
Lemma edge_idx_inb s l : pos s -> List.length l = List.length s -> inb s (edge_idx s l).
Proof. revert l. induction s as [|n s IH]; intros [|i l] P L; cbn in L; try lia; [constructor|]. inversion P; subst. cbn [edge_idx]. constructor; [lia|]. apply IH; [assumption|lia]. Qed.

(** ** the result *)
Section Apply.
Variables (t : prop_type) (s : list nat) (pix dist wl db : R).
Hypothesis Ps : pos s.
Let P := pad_shape s.
Let F := prop_filter t P pix dist wl db.
Lemma F_tneg k : inb P k -> F (tneg P k) = F k.
Proof. intros I. unfold F, prop_filter. now rewrite freq_sq_tneg. Qed.
Definition shifted (x : arr) : arr := fun l => edge_pad s x (tadd P l (prop_shift s)).
Lemma shifted_corner x l : inb s l -> shifted x l = x l. Proof. intros I. unfold shifted, edge_pad, P. now rewrite pad_corner. Qed.
Lemma spectrum_eq x k : inb P k -> prop_spectrum t s pix dist wl db x k = dftN P (fun l => RtoC (shifted x l)) k *c RtoC (/ F k).
Proof.
  intros I. unfold prop_spectrum. fold P. fold F. f_equal. pose proof (dftN_shift P (fun l => RtoC (edge_pad s x l)) (map Z.opp (prop_shift s)) k (pos_pad s Ps)) as E.
  rewrite map_length in E. specialize (E (shift_length s)). rewrite map_opp_opp, chi_opp, conj_conj in E. unfold shifted. rewrite E. ring.
Qed.
(** the inverse transform is real: the halved transform of the code loses nothing *)
Lemma spectrum_herm x k : inb P k -> prop_spectrum t s pix dist wl db x (tneg P k) = conj (prop_spectrum t s pix dist wl db x k).
Proof.
  intros I. assert (PP : pos P) by now apply pos_pad. rewrite !spectrum_eq by (try exact I; now apply tneg_inb). rewrite F_tneg by exact I. rewrite dftN_real by assumption. rewrite conj_mul, conj_RtoC. reflexivity.
Qed.
Lemma full_real x l : inb P l -> idftN P (prop_spectrum t s pix dist wl db x) l = RtoC (prop_full t s pix dist wl db x l).
Proof.
  intros I. assert (PP : pos P) by now apply pos_pad. unfold prop_full. fold P. set (X := prop_spectrum t s pix dist wl db x).
  assert (E : conj (idftN P X l) = idftN P X l).
  { unfold idftN. rewrite conj_mul, conj_RtoC. f_equal. rewrite cbsum_conj.
    assert (G : cbsum P (fun k => X (tneg P k) *c chi P (tneg P k) (zl l)) = cbsum P (fun k => X k *c chi P k (zl l))).
    { apply C_eq; unfold cbsum; cbn [fst snd]; [apply (bsum_tneg P (fun k => fst (X k *c chi P k (zl l))) PP)|apply (bsum_tneg P (fun k => snd (X k *c chi P k (zl l))) PP)]. }
    rewrite <- G. apply cbsum_ext. intros k Hk. rewrite conj_mul. unfold X. rewrite spectrum_herm by exact Hk. rewrite chi_tneg by assumption. reflexivity. }
  assert (Z : snd (idftN P X l) = 0). { apply (f_equal snd) in E. unfold conj in E. cbn [snd] in E. lra. }
  apply C_eq; unfold RtoC; cbn [fst snd]; [reflexivity|exact Z].
Qed.
End Apply.
(** forward propagation of an image on a periodic grid: the specification *)
Definition propagate (P : list nat) (F : list nat -> R) (x : arr) : carrN := idftN P (fun k => dftN P (fun l => RtoC (x l)) k *c RtoC (F k)).
(** the code divides by the filter: on real hardware the statements below hold only when it vanishes nowhere (see C91_tie_never_vanishes) *)
Definition filter_ok (t : prop_type) (s : list nat) (pix dist wl db : R) : Prop := forall k, inb (pad_shape s) k -> prop_filter t (pad_shape s) pix dist wl db k <> 0.
(** the retrieved image is part of an image on the padded grid whose propagation is, on the field of view, exactly the measured image *)
Theorem C149_retrieval_explains_data : forall t s pix dist wl db x, pos s -> filter_ok t s pix dist wl db ->
  exists out, (forall l, inb s l -> apply_propagation_filter t s pix dist wl db x l = out l) /\
    (forall l, inb s l -> propagate (map (fun n => (2 * n)%nat) s) (prop_filter t (pad_shape s) pix dist wl db) out l = RtoC (x l)) /\
    (forall l, inb (map (fun n => (2 * n)%nat) s) l -> propagate (map (fun n => (2 * n)%nat) s) (prop_filter t (pad_shape s) pix dist wl db) out l = RtoC (extended s x l)).
Proof.
  intros t s pix dist wl db x Ps NZ. unfold filter_ok in NZ. exists (prop_full t s pix dist wl db x). split; [reflexivity|].
  assert (G : forall l, inb (pad_shape s) l -> propagate (pad_shape s) (prop_filter t (pad_shape s) pix dist wl db) (prop_full t s pix dist wl db x) l = RtoC (shifted s x l)).
  2:{ rewrite pad_shape_eq in G |- *. split; intros l I; rewrite G; f_equal.
      - now apply shifted_corner.
      - rewrite <- pad_shape_eq. now apply inb_pad.
      - unfold shifted, edge_pad, extended. now rewrite pad_all.
      - exact I. }
  intros l I. unfold propagate. set (P := pad_shape s) in *. set (F := prop_filter t P pix dist wl db) in *.
  rewrite (idftN_ext P _ (fun k => dftN P (fun m => RtoC (shifted s x m)) k)).
  - now rewrite idftN_dftN.
  - intros k Hk. rewrite (dftN_ext P _ (idftN P (prop_spectrum t s pix dist wl db x))) by (intros m Hm; symmetry; now apply full_real). rewrite dftN_idftN by exact Hk. rewrite spectrum_eq by assumption. fold P. fold F.
    specialize (NZ k Hk). fold F in NZ. apply C_eq; unfold Cmul, RtoC; cbn [fst snd]; field; exact NZ.
Qed.
Example C149_retrieval_example : forall x l, inb [3; 4]%nat l -> exists out, apply_propagation_filter TIE [3; 4]%nat 1 2 3 4 x l = out l /\ propagate [6; 8]%nat (prop_filter TIE [6; 8]%nat 1 2 3 4) out l = RtoC (x l).
Proof.
  intros x l I. destruct (C149_retrieval_explains_data TIE [3; 4]%nat 1 2 3 4 x) as (out & A & B & _).
  - repeat constructor; lia.
  - unfold filter_ok. intros k _. pose proof (C91_tie_never_vanishes (pad_shape [3; 4]%nat) 1 2 3 4 k). lra.
  - exists out. split; [now apply A|]. exact (B l I).
Qed.
(** at distance zero the image is returned *)
Theorem C91_zero_distance : forall t s pix wl db x l, inb s l -> apply_propagation_filter t s pix 0 wl db x l = x l.
Proof.
  intros t s pix wl db x l I. pose proof (pos_inb _ _ I) as Ps. unfold apply_propagation_filter, prop_full.
  assert (F1 : forall k, prop_filter t (pad_shape s) pix 0 wl db k = 1).
  { intros k. destruct t; cbn [prop_filter]; unfold ctf_response, tie_response; [replace (0 * wl * PI * freq_sq (pad_shape s) k pix) with 0 by ring; rewrite cos_0, sin_0; ring|ring]. }
  rewrite (idftN_ext _ _ (dftN (pad_shape s) (fun m => RtoC (shifted s x m)))).
  - rewrite idftN_dftN by now apply inb_pad. cbn [RtoC fst]. now apply shifted_corner.
  - intros k Hk. rewrite spectrum_eq by assumption. rewrite F1, Rinv_1. apply C_eq; unfold Cmul, RtoC; cbn [fst snd]; ring.
Qed.
(** linear in the image *)
Lemma dftN_lin s a b x y k : dftN s (fun l => RtoC (a * x l + b * y l)) k = RtoC a *c dftN s (fun l => RtoC (x l)) k +c RtoC b *c dftN s (fun l => RtoC (y l)) k.
Proof.
  unfold dftN. rewrite <- !cbsum_scal, <- cbsum_plus. apply cbsum_ext. intros l _. apply C_eq; unfold Cmul, Cadd, RtoC; cbn [fst snd]; ring.
Qed.
Lemma idftN_lin s a b X Y l : idftN s (fun k => RtoC a *c X k +c RtoC b *c Y k) l = RtoC a *c idftN s X l +c RtoC b *c idftN s Y l.
Proof.
  unfold idftN. rewrite (cbsum_ext s _ (fun k => RtoC a *c (X k *c chi s k (zl l)) +c RtoC b *c (Y k *c chi s k (zl l)))) by (intros; ring). rewrite cbsum_plus, !cbsum_scal. ring.
Qed.
Theorem C91_linear : forall t s pix dist wl db a b x y l, pos s -> filter_ok t s pix dist wl db -> apply_propagation_filter t s pix dist wl db (fun l => a * x l + b * y l) l =
  a * apply_propagation_filter t s pix dist wl db x l + b * apply_propagation_filter t s pix dist wl db y l.
Proof.
  intros t s pix dist wl db a b x y l Ps _. unfold apply_propagation_filter, prop_full.
  rewrite (idftN_ext _ _ (fun k => RtoC a *c prop_spectrum t s pix dist wl db x k +c RtoC b *c prop_spectrum t s pix dist wl db y k)).
  - rewrite idftN_lin. unfold Cadd, Cmul, RtoC. cbn [fst snd]. ring.
  - intros k Hk. unfold prop_spectrum. change (fun l0 => RtoC (edge_pad s (fun l1 => a * x l1 + b * y l1) l0)) with (fun l0 => RtoC (a * edge_pad s x l0 + b * edge_pad s y l0)). rewrite dftN_lin. ring.
Qed.
(** a constant image is left alone by both filters, wherever the filter does not vanish *)
Lemma dftN_const s c k : pos s -> inb s k -> dftN s (fun _ => RtoC c) k = if list_eq_dec_nat k (repeat 0%nat (List.length s)) then RtoC (c * INR (size s)) else C0.
Proof.
  intros Ps I. unfold dftN. rewrite cbsum_scal. rewrite (cbsum_ext s _ (fun l => chi s l (map Z.opp (zl k)))) by (intros l _; rewrite chi_opp, chi_sym; reflexivity).
  rewrite chi_orth by (try exact Ps; rewrite map_length, zl_length; now apply inb_length). destruct (list_eq_dec_nat k _) as [E|E].
  - rewrite E. assert (Z : zero_mod s (map Z.opp (zl (repeat 0%nat (List.length s)))) = true). { unfold zero_mod. clear. induction s as [|n s IH]; [reflexivity|]. cbn. exact IH. }
    rewrite Z. apply C_eq; unfold Cmul, RtoC; cbn [fst snd]; ring.
  - destruct (zero_mod s (map Z.opp (zl k))) eqn:Z; [|apply C_eq; unfold Cmul, RtoC, C0; cbn [fst snd]; ring]. exfalso. apply E. clear E Ps. revert Z. induction I as [|i n k s Hi I IH]; intros Z; [reflexivity|].
    unfold zero_mod in Z. cbn [zl map combine forallb fst snd] in Z. apply andb_true_iff in Z as [Z1 Z2]. apply Z.eqb_eq in Z1. cbn [List.length repeat]. f_equal; [|now apply IH].
    apply Z.mod_divide in Z1; [|lia]. destruct Z1 as [q Hq]. assert (q = 0)%Z by nia. lia.
Qed.
Theorem C91_constant_image : forall t s pix dist wl db c l, inb s l -> filter_ok t s pix dist wl db -> apply_propagation_filter t s pix dist wl db (fun _ => c) l = c.
Proof.
  intros t s pix dist wl db c l I _. pose proof (pos_inb _ _ I) as Ps. unfold apply_propagation_filter, prop_full. pose proof (pos_pad s Ps) as PP.
  rewrite (idftN_ext _ _ (dftN (pad_shape s) (fun _ => RtoC c))); [rewrite idftN_dftN by (now apply inb_pad); reflexivity|].
  intros k Hk. rewrite spectrum_eq by assumption. change (fun m => RtoC (shifted s (fun _ => c) m)) with (fun _ : list nat => RtoC c). rewrite dftN_const by assumption. destruct (list_eq_dec_nat _ _) as [->|_]; [|ring].
  rewrite C91_response_at_zero, Rinv_1. apply C_eq; unfold Cmul, RtoC; cbn [fst snd]; ring.
Qed.
(** the total over the padded grid does not change *)
Lemma dftN_zero s (x : arr) : pos s -> dftN s (fun l => RtoC (x l)) (repeat 0%nat (List.length s)) = RtoC (bsum s x).
Proof.
  intros Ps. unfold dftN. rewrite (cbsum_ext s _ (fun l => RtoC (x l))). 
  - apply C_eq; unfold cbsum, RtoC; cbn [fst snd]; [reflexivity|apply bsum_0].
  - intros l I. rewrite chi_k0 by (now apply inb_length). rewrite conj_C1. ring.
Qed.
Theorem C91_padded_total_kept : forall t s pix dist wl db x, pos s -> filter_ok t s pix dist wl db -> bsum (pad_shape s) (prop_full t s pix dist wl db x) = bsum (pad_shape s) (edge_pad s x).
Proof.
  intros t s pix dist wl db x Ps _. pose proof (pos_pad s Ps) as PP. assert (E : RtoC (bsum (pad_shape s) (prop_full t s pix dist wl db x)) = RtoC (bsum (pad_shape s) (shifted s x))).
  { rewrite <- !dftN_zero by exact PP. rewrite (dftN_ext _ _ (idftN (pad_shape s) (prop_spectrum t s pix dist wl db x))) by (intros; symmetry; now apply full_real).
    assert (I0 : inb (pad_shape s) (repeat 0%nat (List.length (pad_shape s)))) by (now apply zeros_inb). rewrite dftN_idftN by exact I0. rewrite spectrum_eq by assumption. rewrite C91_response_at_zero, Rinv_1.
    apply C_eq; unfold Cmul, RtoC; cbn [fst snd]; ring. }
  apply (f_equal fst) in E. cbn [RtoC fst] in E. rewrite E. unfold shifted. apply (bsum_torus (pad_shape s) (edge_pad s x) (prop_shift s) PP). apply shift_length.
Qed.
(** the real-space filter sums to one *)
Theorem C91_direct_filter_sums_to_one : forall t s pix dist wl db, pos s -> bsum s (prop_filter_direct t s pix dist wl db) = 1.
Proof.
  intros t s pix dist wl db Ps. unfold prop_filter_direct, fftshiftN. set (G := idftN s (fun k => RtoC (prop_filter t s pix dist wl db k))).
  rewrite (bsum_torus s (fun l => fst (G l)) _ Ps) by (now rewrite map_length).
  assert (E : dftN s G (repeat 0%nat (List.length s)) = RtoC 1). { unfold G. rewrite dftN_idftN by now apply zeros_inb. now rewrite C91_response_at_zero. }
  unfold dftN in E. rewrite (cbsum_ext s _ G) in E by (intros l I; rewrite chi_k0 by (now apply inb_length); rewrite conj_C1; ring). apply (f_equal fst) in E. exact E.
Qed.
Example C91_examples : prop_type_of "TIE" = inr TIE /\ prop_type_of "paganin" = inl ValueError /\ (forall l, inb [2; 3]%nat l -> apply_propagation_filter TIE [2; 3]%nat 1 2 3 4 (fun _ => 7) l = 7).
Proof. split; [reflexivity|]. split; [reflexivity|]. intros l I. apply C91_constant_image; [exact I|]. intros k _. pose proof (C91_tie_never_vanishes (pad_shape [2; 3]%nat) 1 2 3 4 k). lra. Qed.
(** the ratio of the refractive decrement to the absorption index *)
Theorem C91_delta_beta : forall delta beta, beta <> 0 -> delta_beta (1 - delta) beta = delta / beta. Proof. intros. unfold delta_beta. field. assumption. Qed.
