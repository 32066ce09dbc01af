(** C161: convergence of SART (cyclic single-projection updates), and its failure when the projections weigh the voxels differently. *)
From Coq Require Import Permutation.
From Verif Require Import Sums DataTermsModel SolversModel SolversSpec SolversGeneric SolversProps RegularizersModel SolversConv Compact PdhgConv PdhgExistProps LsExist.

(** * Generic: a sequence whose weighted distance to one of its cluster points never increases converges to it *)
Definition wdist (n : nat) (c x y : vec) : R := rsum n (fun j => c j * (x j - y j) ^ 2).
Lemma wdist_nonneg n c x y : (forall j, (j < n)%nat -> 0 < c j) -> 0 <= wdist n c x y.
Proof. intros Hc. apply rsum_nonneg. intros j Hj. apply Rmult_le_pos; [left; apply Hc, Hj|apply pow2_ge_0]. Qed.
Lemma wdist_coord n c x y j : (forall j, (j < n)%nat -> 0 < c j) -> (j < n)%nat -> c j * (x j - y j) ^ 2 <= wdist n c x y.
Proof. intros Hc Hj. apply (rsum_term_le n (fun j => c j * (x j - y j) ^ 2) j); [|exact Hj]. intros q Hq. apply Rmult_le_pos; [left; apply Hc, Hq|apply pow2_ge_0]. Qed.
Lemma cont_wdist n c v : cont n (fun u => wdist n c u v) v.
Proof.
  unfold wdist. apply (cont_rsum n n (fun j u => c j * (u j - v j) ^ 2)). intros j Hj. apply cont_scal. apply (cont_ext n (fun u => (u j + - v j) * (u j + - v j))); [intros; ring|].
  apply cont_mult; (apply cont_plus; [apply cont_coord, Hj|apply cont_const]).
Qed.
Lemma wdist_self n c v : wdist n c v v = 0.
Proof. apply rsum_zero. intros. ring. Qed.
(** closeness in weighted distance gives closeness of the coordinates *)
Lemma wdist_close n c eps : (forall j, (j < n)%nat -> 0 < c j) -> 0 < eps -> exists t, 0 < t /\ forall x y, wdist n c x y < t -> forall j, (j < n)%nat -> Rabs (x j - y j) < eps.
Proof.
  intros Hc He.
  assert (H : forall k, (k <= n)%nat -> exists t, 0 < t /\ forall x y, wdist n c x y < t -> forall j, (j < k)%nat -> Rabs (x j - y j) < eps).
  { induction k as [|k IH]; intros Hk; [exists 1; split; [lra|intros; lia]|]. destruct (IH ltac:(lia)) as (t & Ht & H). pose proof (Hc k ltac:(lia)) as Ck.
    exists (Rmin t (c k * eps ^ 2)). split; [apply Rmin_glb_lt; [exact Ht|apply Rmult_lt_0_compat; [exact Ck|apply pow_lt, He]]|].
    intros x y Hxy j Hj. destruct (Nat.eq_dec j k) as [->|Hne].
    - pose proof (wdist_coord n c x y k Hc ltac:(lia)) as G. pose proof (Rmin_r t (c k * eps ^ 2)). assert (G2 : (x k - y k) ^ 2 < eps ^ 2) by (apply Rmult_lt_reg_l with (c k); lra).
      rewrite <- (Rabs_right eps) by lra. apply Rsqr_lt_abs_0. unfold Rsqr. lra.
    - apply (H x y); [|lia]. eapply Rlt_le_trans; [exact Hxy|apply Rmin_l]. }
  apply H. lia.
Qed.
Lemma fejer_converges n c (x : nat -> vec) v : (forall j, (j < n)%nat -> 0 < c j) -> cluster n x v -> (forall k, wdist n c (x (S k)) v <= wdist n c (x k) v) ->
  forall eps, 0 < eps -> exists N, forall k, (N <= k)%nat -> forall j, (j < n)%nat -> Rabs (x k j - v j) < eps.
Proof.
  intros Hc Hv Hm eps He. destruct (wdist_close n c eps Hc He) as (t & Ht & H). destruct (cont_wdist n c v t Ht) as (e1 & P1 & Q1).
  destruct (Hv e1 0%nat P1) as (N & _ & HN). specialize (Q1 _ HN). rewrite wdist_self, Rminus_0_r in Q1.
  exists N. intros k Hk. apply H. apply Rle_lt_trans with (wdist n c (x N) v); [|eapply Rle_lt_trans; [apply Rle_abs|exact Q1]].
  induction Hk as [|k Hk IH]; [lra|]. eapply Rle_trans; [apply Hm|exact IH].
Qed.

(** * One projected update in the metric of the column sums *)
Lemma clip_nonexp lo up x y j : (np_clip lo up x j - np_clip lo up y j) ^ 2 <= (x j - y j) ^ 2.
Proof.
  assert (H : Rabs (np_clip lo up x j - np_clip lo up y j) <= Rabs (x j - y j)).
  { unfold np_clip. set (a := x j). set (e := y j).
    assert (H1 : Rabs (match lo with Some l => Rmax a (l j) | None => a end - match lo with Some l => Rmax e (l j) | None => e end) <= Rabs (a - e)).
    { destruct lo as [l|]; [|lra]. unfold Rmax. destruct (Rle_dec a (l j)), (Rle_dec e (l j)); unfold Rabs; repeat destruct (Rcase_abs _); lra. }
    eapply Rle_trans; [|exact H1]. destruct up as [u|]; [|lra]. unfold Rmin. repeat destruct (Rle_dec _ _); unfold Rabs; repeat destruct (Rcase_abs _); lra. }
  apply Rsqr_le_abs_1 in H. unfold Rsqr in H. lra.
Qed.

Section Row.
  Variables (d n : nat) (M : mat) (w b c : vec) (relax : R) (lo up xm : option vec).
  Hypothesis Hw : forall i, (i < d)%nat -> 0 <= w i.
  Hypothesis Hc : forall j, (j < n)%nat -> 0 < c j.
  Hypothesis Hxm : binary_mask xm.
  Definition in_mask (x : vec) : Prop := forall j, (j < n)%nat -> mask_at xm j = 0 -> x j = 0.
  Definition energy (e : vec) : R := rsum d (fun i => w i * mv n M e i ^ 2).
  Hypothesis Hen : forall e, in_mask e -> energy e <= rsum n (fun j => c j * e j ^ 2).
  Hypothesis Hrel : 0 < relax < 2.
  Definition rowT (x : vec) : vec := constrain lo up xm (fun j => x j - mtv d M (fun i => w i * (mv n M x i - b i)) j * (relax / c j)).

  Lemma grad_bound e : in_mask e -> rsum n (fun j => mask_at xm j * mtv d M (fun i => w i * mv n M e i) j ^ 2 / c j) <= energy e.
  Proof.
    intros He. set (g := mtv d M (fun i => w i * mv n M e i)). set (h := fun j => mask_at xm j * g j / c j).
    set (G := rsum n (fun j => mask_at xm j * g j ^ 2 / c j)).
    assert (Hh : in_mask h) by (intros j Hj Hm; unfold h; rewrite Hm; unfold Rdiv; ring).
    assert (G0 : 0 <= G) by (apply rsum_nonneg; intros j Hj; apply Rdiv_le_0_compat; [apply Rmult_le_pos; [apply binary_nonneg, Hxm|apply pow2_ge_0]|apply Hc, Hj]).
    assert (E0 : 0 <= energy e) by (apply rsum_nonneg; intros i Hi; apply Rmult_le_pos; [apply Hw, Hi|apply pow2_ge_0]).
    assert (GE : G = rsum d (fun i => w i * (mv n M e i * mv n M h i))).
    { unfold G. rewrite (rsum_ext n _ (fun j => rsum d (fun i => w i * mv n M e i * (M i j * h j)))).
      - rewrite rsum_swap. apply rsum_ext. intros i Hi. rewrite rsum_scal. unfold mv at 2. fold (mv n M h i). unfold mv. ring.
      - intros j Hj. unfold h. transitivity (g j * (mask_at xm j * g j / c j)); [unfold Rdiv; ring|]. unfold g at 1, mtv. rewrite <- rsum_scal_r. apply rsum_ext. intros; ring. }
    pose proof (rsum_CS_w d w (mv n M e) (mv n M h) Hw) as CS. rewrite <- GE in CS. fold (energy e) in CS. fold (energy h) in CS.
    assert (Eh : energy h <= G).
    { eapply Rle_trans; [apply Hen, Hh|]. right. apply rsum_ext. intros j Hj. unfold h. pose proof (Hc j Hj). destruct (Hxm j) as [-> | ->]; field; lra. }
    assert (CS2 : G ^ 2 <= energy e * G) by (eapply Rle_trans; [exact CS|]; apply Rmult_le_compat_l; assumption).
    fold G. destruct (Req_dec G 0) as [E|E]; [lra|]. apply Rmult_le_reg_r with G; [lra|]. lra.
  Qed.

  (** the update contracts the distance between any two volumes *)
  Lemma row_contract x y : in_mask x -> in_mask y -> wdist n c (rowT x) (rowT y) + relax * (2 - relax) * energy (fun j => x j - y j) <= wdist n c x y.
  Proof.
    intros Hx Hy. set (e := fun j => x j - y j). assert (He : in_mask e) by (intros j Hj Hm; unfold e; rewrite (Hx j Hj Hm), (Hy j Hj Hm); ring).
    set (g := mtv d M (fun i => w i * mv n M e i)).
    assert (Mv : forall i, mv n M x i - mv n M y i = mv n M e i) by (intros i; unfold mv; rewrite <- rsum_minus; apply rsum_ext; intros; unfold e; ring).
    assert (Gd : forall j, mtv d M (fun i => w i * (mv n M x i - b i)) j - mtv d M (fun i => w i * (mv n M y i - b i)) j = g j).
    { intros j. unfold g, mtv. rewrite <- rsum_minus. apply rsum_ext. intros i Hi. rewrite <- Mv. ring. }
    assert (H1 : wdist n c (rowT x) (rowT y) <= rsum n (fun j => mask_at xm j * (c j * (e j - g j * (relax / c j)) ^ 2))).
    { apply rsum_le. intros j Hj. destruct (Hxm j) as [Hm|Hm].
      - unfold rowT. rewrite !(constrain_out _ _ _ _ _ Hm), Hm. right. ring.
      - unfold rowT. rewrite !(constrain_in _ _ _ _ _ Hm), Hm, Rmult_1_l. apply Rmult_le_compat_l; [left; apply Hc, Hj|]. eapply Rle_trans; [apply clip_nonexp|]. right. rewrite <- Gd. unfold e. ring. }
    assert (H2 : rsum n (fun j => mask_at xm j * (c j * (e j - g j * (relax / c j)) ^ 2)) =
                 wdist n c x y - 2 * relax * rsum n (fun j => e j * g j) + relax ^ 2 * rsum n (fun j => mask_at xm j * g j ^ 2 / c j)).
    { unfold wdist. rewrite <- !rsum_scal, <- rsum_minus, <- rsum_plus. apply rsum_ext. intros j Hj. pose proof (Hc j Hj). fold (e j). destruct (Hxm j) as [Hm|Hm]; rewrite Hm.
      - rewrite (He j Hj Hm). unfold Rdiv. ring.
      - field. lra. }
    assert (H3 : rsum n (fun j => e j * g j) = energy e).
    { unfold energy, g, mtv. rewrite (rsum_ext n _ (fun j => rsum d (fun i => w i * mv n M e i * (M i j * e j)))) by (intros j Hj; rewrite <- rsum_scal; apply rsum_ext; intros; ring).
      rewrite rsum_swap. apply rsum_ext. intros i Hi. rewrite rsum_scal. fold (mv n M e i). ring. }
    pose proof (grad_bound e He) as H4. fold g in H4. assert (H5 : relax ^ 2 * rsum n (fun j => mask_at xm j * g j ^ 2 / c j) <= relax ^ 2 * energy e) by (apply Rmult_le_compat_l; [apply pow2_ge_0|exact H4]).
    fold e. nra.
  Qed.
  Lemma rowT_in_mask x : in_mask (rowT x).
  Proof. intros j Hj Hm. apply constrain_out, Hm. Qed.
  Lemma cont_energy z v : cont n (fun u => energy (fun j => u j - z j)) v.
  Proof.
    unfold energy. apply (cont_rsum n d (fun i u => w i * mv n M (fun j => u j - z j) i ^ 2)). intros i Hi. apply cont_scal.
    apply (cont_ext n (fun u => mv n M (fun j => u j - z j) i * mv n M (fun j => u j - z j) i)); [intros; ring|].
    assert (C : cont n (fun u => mv n M (fun j => u j - z j) i) v).
    { unfold mv. apply (cont_rsum n n (fun j u => M i j * (u j - z j))). intros j Hj. apply cont_scal. apply cont_plus; [apply cont_coord, Hj|apply cont_const]. }
    apply cont_mult; exact C.
  Qed.
End Row.

(** * SART *)
(** single-projection operators given by one matrix per projection *)
Definition sart_mat (d n : nat) (Ms : nat -> mat) : sart_op := mkSart (fun x a => mv n (Ms a) x) (fun y a => mtv d (Ms a) y).
Definition bmask_of (b_mask : option (nat -> vec)) (a : nat) : option vec := option_map (fun m => m a) b_mask.
(** what one projection weighs each voxel with (the denominators of tau) and the voxels each pixel sees (of sigma) *)
Definition view_weight (d n : nat) (Ms : nat -> mat) b_mask (a j : nat) : R := rsum d (fun i => Ms a i j * mask_at (bmask_of b_mask a) i).
Definition ray_weight (n : nat) (Ms : nat -> mat) (xm : option vec) (a i : nat) : R := rsum n (fun j => Ms a i j * mask_at xm j).

Record sart_setting (d n num : nat) (Ms : nat -> mat) (b_mask : option (nat -> vec)) (relax : R) (lo up xm : option vec) (rows : list nat) : Prop := {
  ss_nonneg : forall a i j, (a < num)%nat -> (i < d)%nat -> (j < n)%nat -> 0 <= Ms a i j;
  ss_xmask : binary_mask xm; ss_bmask : forall a, binary_mask (bmask_of b_mask a); ss_lims : lims_ok lo up n;
  ss_relax : 0 < relax < 2; ss_num : (0 < num)%nat; ss_rows : Permutation rows (seq 0 num);
  (** the 1e-5 guards do not change the denominators *)
  ss_tau : forall a j, (a < num)%nat -> (j < n)%nat -> / 100000 <= view_weight d n Ms b_mask a j / rmax2 num n (view_weight d n Ms b_mask);
  ss_sigma : 0 < rmax2 num d (ray_weight n Ms xm);
  ss_sigma' : forall a i, (a < num)%nat -> (i < d)%nat -> ray_weight n Ms xm a i / rmax2 num d (ray_weight n Ms xm) < / 100000 -> ray_weight n Ms xm a i <= 1;
  (** every projection sees every voxel, and with the same weight as the other projections *)
  ss_pos : forall a j, (a < num)%nat -> (j < n)%nat -> 0 < view_weight d n Ms b_mask a j;
  ss_same : forall a a' j, (a < num)%nat -> (a' < num)%nat -> (j < n)%nat -> view_weight d n Ms b_mask a j = view_weight d n Ms b_mask a' j }.

(** [z] reproduces the data inside the data mask *)
Definition reproduces (d n num : nat) (Ms : nat -> mat) (b : nat -> vec) b_mask (z : vec) : Prop :=
  forall a i, (a < num)%nat -> (i < d)%nat -> mask_at (bmask_of b_mask a) i <> 0 -> mv n (Ms a) z i = b a i.

Lemma rmax_ext k f g : (forall i, (i < k)%nat -> f i = g i) -> rmax k f = rmax k g.
Proof.
  destruct k as [|k]; [reflexivity|]. induction k as [|k IH]; intros H; [simpl; apply H; lia|]. simpl in *. rewrite (IH ltac:(intros; apply H; lia)). rewrite (H (S k)) by lia. reflexivity.
Qed.

Section Sart.
  Variables (d n num : nat) (Ms : nat -> mat) (b : nat -> vec) (b_mask : option (nat -> vec)) (relax : R) (lo up xm : option vec) (rows : list nat).
  Hypothesis HS : sart_setting d n num Ms b_mask relax lo up xm rows.
  Let op := sart_mat d n Ms.
  Let sg := sart_sigma d num op xm.
  Let tu := sart_tau n num op relax b_mask.
  Let c : vec := view_weight d n Ms b_mask 0.
  Let w (a : nat) : vec := fun i => sg a i * mask_at (bmask_of b_mask a) i.
  Let G (a : nat) : vec := guard_small2 num n (fun a j => Rabs (sAt op (ones_masked (option_map (fun m => m a) b_mask)) a j)) a.
  Let row (x : vec) (a : nat) : vec := sart_row op b b_mask sg tu lo up xm x a.
  Let E (a : nat) (e : vec) : R := energy d n (Ms a) (w a) e.

  Lemma c_pos j : (j < n)%nat -> 0 < c j.
  Proof. intros Hj. apply (ss_pos _ _ _ _ _ _ _ _ _ _ HS); [apply (ss_num _ _ _ _ _ _ _ _ _ _ HS)|exact Hj]. Qed.
  Lemma raw_view a j : (a < num)%nat -> (j < n)%nat -> Rabs (sAt op (ones_masked (option_map (fun m => m a) b_mask)) a j) = view_weight d n Ms b_mask a j.
  Proof.
    intros Ha Hj. rewrite <- (Rabs_right (view_weight d n Ms b_mask a j)) by (apply Rle_ge; left; apply (ss_pos _ _ _ _ _ _ _ _ _ _ HS); assumption). f_equal.
    simpl. unfold mtv, view_weight. apply rsum_ext. intros i Hi. f_equal. unfold ones_masked, mul_mask, bmask_of, mask_at, vones. destruct b_mask; simpl; ring.
  Qed.
  Lemma raw_ray a i : (a < num)%nat -> (i < d)%nat -> Rabs (sA op (ones_masked xm) a i) = ray_weight n Ms xm a i /\ 0 <= ray_weight n Ms xm a i.
  Proof.
    intros Ha Hi. assert (P : 0 <= ray_weight n Ms xm a i).
    { apply rsum_nonneg. intros j Hj. apply Rmult_le_pos; [apply (ss_nonneg _ _ _ _ _ _ _ _ _ _ HS); assumption|apply binary_nonneg, (ss_xmask _ _ _ _ _ _ _ _ _ _ HS)]. }
    split; [|exact P]. rewrite <- (Rabs_right (ray_weight n Ms xm a i)) by lra. f_equal. simpl. unfold mv, ray_weight. apply rsum_ext. intros j Hj. f_equal.
    unfold ones_masked, mul_mask, mask_at, vones. destruct xm; simpl; ring.
  Qed.
  Lemma G_eq a j : (a < num)%nat -> (j < n)%nat -> G a j = c j.
  Proof.
    intros Ha Hj. unfold G, guard_small2. rewrite (raw_view a j Ha Hj).
    assert (Em : rmax2 num n (fun a j => Rabs (sAt op (ones_masked (option_map (fun m => m a) b_mask)) a j)) = rmax2 num n (view_weight d n Ms b_mask))
      by (apply rmax_ext; intros a' Ha'; apply rmax_ext; intros j' Hj'; apply raw_view; assumption).
    rewrite Em. destruct (Rlt_dec _ _) as [H|_]; [pose proof (ss_tau _ _ _ _ _ _ _ _ _ _ HS a j Ha Hj); lra|].
    apply (ss_same _ _ _ _ _ _ _ _ _ _ HS); [exact Ha|apply (ss_num _ _ _ _ _ _ _ _ _ _ HS)|exact Hj].
  Qed.
  Lemma sg_ok a i : (a < num)%nat -> (i < d)%nat -> 0 < sg a i /\ sg a i * ray_weight n Ms xm a i <= 1.
  Proof.
    intros Ha Hi. unfold sg, sart_sigma, guard_small2. destruct (raw_ray a i Ha Hi) as [-> P].
    assert (Em : rmax2 num d (fun a i => Rabs (sA op (ones_masked xm) a i)) = rmax2 num d (ray_weight n Ms xm))
      by (apply rmax_ext; intros a' Ha'; apply rmax_ext; intros j' Hj'; apply raw_ray; assumption).
    rewrite Em. pose proof (ss_sigma _ _ _ _ _ _ _ _ _ _ HS) as Hp. destruct (Rlt_dec _ _) as [H|H].
    - pose proof (ss_sigma' _ _ _ _ _ _ _ _ _ _ HS a i Ha Hi H). unfold Rdiv. rewrite Rinv_1. lra.
    - apply Rnot_lt_le in H. assert (0 < ray_weight n Ms xm a i).
      { apply Rmult_le_compat_r with (r := rmax2 num d (ray_weight n Ms xm)) in H; [|lra]. unfold Rdiv in H. rewrite Rmult_assoc, Rinv_l in H by lra. lra. }
      split; [apply Rdiv_lt_0_compat; lra|]. right. field. lra.
  Qed.
  Lemma w_nonneg a i : (a < num)%nat -> (i < d)%nat -> 0 <= w a i.
  Proof. intros Ha Hi. apply Rmult_le_pos; [left; apply sg_ok; assumption|apply binary_nonneg, (ss_bmask _ _ _ _ _ _ _ _ _ _ HS)]. Qed.
  Lemma energy_c a e : (a < num)%nat -> in_mask n xm e -> E a e <= rsum n (fun j => c j * e j ^ 2).
  Proof.
    intros Ha He. pose proof (ss_xmask _ _ _ _ _ _ _ _ _ _ HS) as Hx. pose proof (ss_bmask _ _ _ _ _ _ _ _ _ _ HS a) as Hbm.
    eapply Rle_trans; [apply (energy_bound d n (Ms a) (w a) (fun i => mask_at (bmask_of b_mask a) i) (fun j => mask_at xm j) e)|].
    - intros i Hi. apply w_nonneg; assumption.
    - intros j Hj. apply binary_nonneg, Hx.
    - intros j Hj. destruct (Hx j) as [Hm|Hm]; rewrite Hm; [rewrite (He j Hj Hm)|]; ring.
    - intros i Hi. destruct (sg_ok a i Ha Hi) as [H1 H2]. unfold w.
      rewrite (rsum_ext n _ (fun j => Ms a i j * mask_at xm j)) by (intros j Hj; rewrite Rabs_right; [reflexivity|apply Rle_ge, (ss_nonneg _ _ _ _ _ _ _ _ _ _ HS); assumption]).
      fold (ray_weight n Ms xm a i). pose proof (binary_nonneg (bmask_of b_mask a) i Hbm). nra.
    - apply rsum_le. intros j Hj. apply Rmult_le_compat_r; [apply pow2_ge_0|].
      rewrite (rsum_ext d _ (fun i => Ms a i j * mask_at (bmask_of b_mask a) i)) by (intros i Hi; rewrite Rabs_right; [reflexivity|apply Rle_ge, (ss_nonneg _ _ _ _ _ _ _ _ _ _ HS); assumption]).
      fold (view_weight d n Ms b_mask a j). rewrite (ss_same _ _ _ _ _ _ _ _ _ _ HS a 0 j Ha (ss_num _ _ _ _ _ _ _ _ _ _ HS) Hj). fold (c j). pose proof (c_pos j Hj). destruct (Hx j) as [-> | ->]; lra.
  Qed.
  Lemma row_eq x a : row x a = rowT d n (Ms a) (w a) (b a) (G a) relax lo up xm x.
  Proof.
    unfold row, sart_row, rowT. f_equal. apply vec_ext. intros j. unfold vsub at 1, vmul at 1. f_equal. f_equal. simpl. unfold mtv. apply rsum_ext. intros i Hi. f_equal.
    unfold vmul, vsub, mul_mask, w, bmask_of, mask_at. destruct b_mask; simpl; ring.
  Qed.
  Lemma wdist_ext c1 c2 x y x' y' : (forall j, (j < n)%nat -> c1 j = c2 j /\ x j = x' j /\ y j = y' j) -> wdist n c1 x y = wdist n c2 x' y'.
  Proof. intros H. apply rsum_ext. intros j Hj. destruct (H j Hj) as (-> & -> & ->). reflexivity. Qed.
  Lemma row_dist x y a : (a < num)%nat -> in_mask n xm x -> in_mask n xm y ->
    wdist n c (row x a) (row y a) + relax * (2 - relax) * E a (fun j => x j - y j) <= wdist n c x y.
  Proof.
    intros Ha Hx Hy. rewrite !row_eq.
    rewrite (wdist_ext c (G a) _ _ (rowT d n (Ms a) (w a) (b a) (G a) relax lo up xm x) (rowT d n (Ms a) (w a) (b a) (G a) relax lo up xm y)) by (intros j Hj; rewrite (G_eq a j Ha Hj); auto).
    rewrite (wdist_ext c (G a) x y x y) by (intros j Hj; rewrite (G_eq a j Ha Hj); auto).
    apply row_contract; [intros i Hi; apply w_nonneg; assumption|intros j Hj; rewrite (G_eq a j Ha Hj); apply c_pos, Hj|apply (ss_xmask _ _ _ _ _ _ _ _ _ _ HS)| |apply (ss_relax _ _ _ _ _ _ _ _ _ _ HS)|exact Hx|exact Hy].
    intros e He. rewrite (rsum_ext n _ (fun j => c j * e j ^ 2)) by (intros j Hj; rewrite (G_eq a j Ha Hj); reflexivity). apply energy_c; assumption.
  Qed.
  Let ok (a : nat) (z : vec) : Prop := forall i, (i < d)%nat -> mask_at (bmask_of b_mask a) i <> 0 -> mv n (Ms a) z i = b a i.
  Lemma row_fixed z a j : (a < num)%nat -> feasible lo up xm n z -> ok a z -> (j < n)%nat -> row z a j = z j.
  Proof.
    intros Ha Hz Hok Hj. rewrite row_eq. unfold rowT. set (u := fun j => _). assert (Eu : u j = z j).
    { unfold u, mtv. rewrite (rsum_zero d). { ring. } intros i Hi. unfold w. destruct (Req_dec (mask_at (bmask_of b_mask a) i) 0) as [Z|Z]; [rewrite Z; ring|rewrite (Hok i Hi Z); ring]. }
    pose proof (constrain_vi lo up xm n u z j (ss_lims _ _ _ _ _ _ _ _ _ _ HS) (ss_xmask _ _ _ _ _ _ _ _ _ _ HS) Hz Hj) as V. rewrite Eu in V.
    assert ((z j - constrain lo up xm u j) = 0) by (apply Rsqr_0_uniq; unfold Rsqr; pose proof (Rle_0_sqr (z j - constrain lo up xm u j)); unfold Rsqr in *; lra). lra.
  Qed.
  Lemma feas_mask z : feasible lo up xm n z -> in_mask n xm z.
  Proof. intros Hz j Hj Hm. apply (feasible_out _ _ _ _ _ _ Hz Hj Hm). Qed.
  Lemma row_in x a : in_mask n xm (row x a).
  Proof. rewrite row_eq. apply rowT_in_mask. Qed.
  Lemma row_feas x a : feasible lo up xm n (row x a).
  Proof. unfold row, sart_row. apply constrain_feasible, (ss_lims _ _ _ _ _ _ _ _ _ _ HS). Qed.
  (** distance to a volume that satisfies the projection a *)
  Lemma row_fejer x z a : (a < num)%nat -> in_mask n xm x -> feasible lo up xm n z -> ok a z ->
    wdist n c (row x a) z + relax * (2 - relax) * E a (fun j => x j - z j) <= wdist n c x z.
  Proof.
    intros Ha Hx Hz Hok. pose proof (row_dist x z a Ha Hx (feas_mask z Hz)) as H.
    rewrite (wdist_ext c c (row x a) (row z a) (row x a) z) in H by (intros j Hj; rewrite (row_fixed z a j Ha Hz Hok Hj); auto). exact H.
  Qed.
  Let kap := relax * (2 - relax).
  Lemma kap_pos : 0 < kap.
  Proof. unfold kap. pose proof (ss_relax _ _ _ _ _ _ _ _ _ _ HS). apply Rmult_lt_0_compat; lra. Qed.
  Lemma E_nonneg a e : (a < num)%nat -> 0 <= E a e.
  Proof. intros Ha. apply rsum_nonneg. intros i Hi. apply Rmult_le_pos; [apply w_nonneg; assumption|apply pow2_ge_0]. Qed.
  Let sweep (l : list nat) (x : vec) : vec := fold_left row l x.
  Lemma sweep_in l x : in_mask n xm x -> in_mask n xm (sweep l x).
  Proof. revert x. induction l as [|a l IH]; intros x Hx; [exact Hx|]. apply IH, row_in. Qed.
  Lemma sweep_dist l x z : (forall a, In a l -> (a < num)%nat /\ ok a z) -> in_mask n xm x -> feasible lo up xm n z -> wdist n c (sweep l x) z <= wdist n c x z.
  Proof.
    revert x. induction l as [|a l IH]; intros x Hl Hx Hz; [apply Rle_refl|]. destruct (Hl a (or_introl eq_refl)) as [Ha Hok].
    eapply Rle_trans; [apply (IH (row x a)); [intros a' H; apply Hl; right; exact H|apply row_in|exact Hz]|].
    pose proof (row_fejer x z a Ha Hx Hz Hok) as F. fold kap in F. pose proof kap_pos. pose proof (E_nonneg a (fun j => x j - z j) Ha). nra.
  Qed.
  Lemma sweep_gain l1 a l2 x z : (forall a', In a' (l1 ++ a :: l2) -> (a' < num)%nat /\ ok a' z) -> in_mask n xm x -> feasible lo up xm n z ->
    wdist n c (sweep (l1 ++ a :: l2) x) z + kap * E a (fun j => sweep l1 x j - z j) <= wdist n c x z.
  Proof.
    intros Hl Hx Hz. unfold sweep. rewrite fold_left_app. simpl. fold (sweep l1 x). fold (sweep l2 (row (sweep l1 x) a)).
    assert (H1 : wdist n c (sweep l1 x) z <= wdist n c x z) by (apply sweep_dist; [intros a' H; apply Hl, in_or_app; left; exact H|exact Hx|exact Hz]).
    destruct (Hl a (in_elt a l1 l2)) as [Ha Hok]. pose proof (row_fejer (sweep l1 x) z a Ha (sweep_in l1 x Hx) Hz Hok) as H2. fold kap in H2.
    assert (H3 : wdist n c (sweep l2 (row (sweep l1 x) a)) z <= wdist n c (row (sweep l1 x) a) z) by (apply sweep_dist; [intros a' H; apply Hl, in_or_app; right; right; exact H|apply row_in|exact Hz]).
    lra.
  Qed.

  Variable x0 : option vec.
  Hypothesis Hx0 : in_mask n xm (pick_x0 x0 vzeros).
  Let X (k : nat) : vec := sart_call n d num op b b_mask relax x0 lo up xm rows k.
  Lemma X_S k : X (S k) = sweep rows (X k).
  Proof.
    unfold X, sart_call. fold sg tu.
    assert (H : forall it k0 x, for_range (S it) k0 (fun _ x => (sart_sweep op b b_mask sg tu lo up xm rows x, false)) x = sweep rows (for_range it k0 (fun _ x => (sart_sweep op b b_mask sg tu lo up xm rows x, false)) x)).
    { induction it as [|it IH]; intros k0 x; [reflexivity|]. change (for_range (S (S it)) k0 _ x) with (for_range (S it) (S k0) (fun _ x => (sart_sweep op b b_mask sg tu lo up xm rows x, false)) (sart_sweep op b b_mask sg tu lo up xm rows x)). rewrite IH. reflexivity. }
    apply H.
  Qed.
  Lemma X_in k : in_mask n xm (X k).
  Proof. induction k as [|k IH]; [exact Hx0|]. rewrite X_S. apply sweep_in, IH. Qed.
  Lemma rows_lt a : In a rows -> (a < num)%nat.
  Proof. intros H. apply (Permutation_in _ (ss_rows _ _ _ _ _ _ _ _ _ _ HS)), in_seq in H. lia. Qed.
  Lemma rows_all a : (a < num)%nat -> In a rows.
  Proof. intros H. apply (Permutation_in _ (Permutation_sym (ss_rows _ _ _ _ _ _ _ _ _ _ HS))), in_seq. lia. Qed.
  Lemma X_feas k : feasible lo up xm n (X (S k)).
  Proof.
    rewrite X_S. pose proof (rows_all 0 (ss_num _ _ _ _ _ _ _ _ _ _ HS)) as H. destruct (exists_last (l := rows) ltac:(intros E0; rewrite E0 in H; exact H)) as (l & a & El).
    unfold sweep. rewrite El at 1. rewrite fold_left_app. simpl. apply row_feas.
  Qed.

  Lemma sart_fejer z k : feasible lo up xm n z -> reproduces d n num Ms b b_mask z -> wdist n c (X (S k)) z <= wdist n c (X k) z.
  Proof. intros Hz Hr. rewrite X_S. apply sweep_dist; [|apply X_in|exact Hz]. intros a Ha. apply rows_lt in Ha. split; [exact Ha|]. intros i Hi. apply Hr; assumption. Qed.

  Lemma sart_limit z0 : feasible lo up xm n z0 -> reproduces d n num Ms b b_mask z0 ->
    exists v, feasible lo up xm n v /\ reproduces d n num Ms b b_mask v /\
      forall eps, 0 < eps -> exists N, forall k, (N <= k)%nat -> forall j, (j < n)%nat -> Rabs (X k j - v j) < eps.
  Proof.
    intros Hz Hr. set (D := fun k => wdist n c (X k) z0).
    assert (Dm : forall k, D (S k) <= D k) by (intros k; apply sart_fejer; assumption).
    assert (D0 : forall k, D k <= D 0%nat) by (induction k as [|k IH]; [lra|]; eapply Rle_trans; [apply Dm|exact IH]).
    assert (Dn : forall k, 0 <= D k) by (intros k; apply wdist_nonneg, c_pos).
    assert (Okz : forall a, In a rows -> (a < num)%nat /\ ok a z0) by (intros a Ha; apply rows_lt in Ha; split; [exact Ha|intros i Hi; apply Hr; assumption]).
    set (Rb := rsum n (fun j => Rabs (z0 j) + 1 + D 0%nat / c j)).
    destruct (bolzano_vec n (fun k => X (S k)) Rb) as [v Hv].
    { intros k j Hj. pose proof (c_pos j Hj) as Cj. pose proof (wdist_coord n c (X (S k)) z0 j c_pos Hj) as H. fold (D (S k)) in H. pose proof (D0 (S k)) as H2.
      assert (H3 : (X (S k) j - z0 j) ^ 2 <= D 0%nat / c j) by (apply Rmult_le_reg_l with (c j); [exact Cj|]; replace (c j * (D 0%nat / c j)) with (D 0%nat) by (field; lra); lra).
      apply Rle_trans with (Rabs (z0 j) + 1 + D 0%nat / c j).
      - replace (X (S k) j) with (z0 j + (X (S k) j - z0 j)) by ring. eapply Rle_trans; [apply Rabs_triang|]. pose proof (abs_sq_bound (X (S k) j - z0 j)). lra.
      - apply (rsum_term_le n (fun j => Rabs (z0 j) + 1 + D 0%nat / c j) j); [|exact Hj]. intros q Hq. pose proof (Rabs_pos (z0 q)). pose proof (Rdiv_le_0_compat (D 0%nat) (c q) (Dn 0%nat) (c_pos q Hq)). lra. }
    assert (Fv : feasible lo up xm n v) by (apply (feasible_closed _ _ _ _ (fun k => X (S k)) v Hv X_feas)).
    (* every projection is satisfied by v *)
    assert (Pre : forall l1 l2, rows = l1 ++ l2 -> forall a, In a l1 -> ok a v).
    { intros l1. induction l1 as [|a l1 IH] using rev_ind; intros l2 HR a' Ha'; [destruct Ha'|].
      assert (HR2 : rows = l1 ++ a :: l2) by (rewrite HR, <- app_assoc; reflexivity). apply in_app_or in Ha'. destruct Ha' as [Ha'|[<-|[]]]; [apply (IH (a :: l2) HR2 a' Ha')|].
      assert (Aa : (a < num)%nat) by (apply rows_lt; rewrite HR2; apply in_elt).
      assert (Cl : cluster n (fun k => sweep l1 (X (S k))) v).
      { intros eps N He. destruct (wdist_close n c eps c_pos He) as (t & Ht & H). destruct (cont_wdist n c v t Ht) as (e1 & P1 & Q1). destruct (Hv e1 N P1) as (k & Hk & Hi).
        exists k. split; [exact Hk|]. apply H. specialize (Q1 _ Hi). rewrite wdist_self, Rminus_0_r in Q1. apply Rle_lt_trans with (wdist n c (X (S k)) v); [|eapply Rle_lt_trans; [apply Rle_abs|exact Q1]].
        apply sweep_dist; [|apply X_in|exact Fv]. intros q Hq. split; [apply rows_lt; rewrite HR2; apply in_or_app; left; exact Hq|apply (IH (a :: l2) HR2 q Hq)]. }
      assert (Ez : E a (fun j => v j - z0 j) <= 0).
      { apply (cluster_le n (fun k => sweep l1 (X (S k))) v (fun u => E a (fun j => u j - z0 j)) (fun k => (D (S k) - D (S (S k))) / kap) Cl).
        - apply cont_energy.
        - intros eps He. pose proof kap_pos as Kp. destruct (decreasing_cv D) as [l Hl].
          { exact Dm. }
          { exists 0. intros y [k ->]. unfold opp_seq. pose proof (Dn k). lra. }
          destruct (Hl (eps * kap / 2) ltac:(apply Rdiv_lt_0_compat; [apply Rmult_lt_0_compat; assumption|lra])) as [N HN]. exists N. intros k Hk.
          pose proof (HN (S k) ltac:(lia)) as A1. pose proof (HN (S (S k)) ltac:(lia)) as A2. unfold R_dist in A1, A2.
          apply Rmult_lt_reg_r with kap; [exact Kp|]. unfold Rdiv. rewrite Rmult_assoc, Rinv_l, Rmult_1_r by lra. unfold Rabs in A1, A2. destruct (Rcase_abs _) in A1; destruct (Rcase_abs _) in A2; lra.
        - intros k. pose proof kap_pos as Kp. pose proof (sweep_gain l1 a l2 (X (S k)) z0) as F. rewrite <- HR2 in F. specialize (F Okz (X_in (S k)) Hz). rewrite <- X_S in F. fold (D (S k)) in F. fold (D (S (S k))) in F.
          apply Rmult_le_reg_r with kap; [exact Kp|]. unfold Rdiv. rewrite Rmult_assoc, Rinv_l, Rmult_1_r by lra. lra. }
      intros i Hi Hm. assert (T : forall q, (q < d)%nat -> 0 <= w a q * mv n (Ms a) (fun j => v j - z0 j) q ^ 2) by (intros q Hq; apply Rmult_le_pos; [apply w_nonneg; assumption|apply pow2_ge_0]).
      pose proof (rsum_nonneg_zero d _ T (Rle_antisym _ _ Ez (E_nonneg a _ Aa)) i Hi) as Z. cbv beta in Z. apply Rmult_integral in Z. destruct Z as [Z|Z].
      - exfalso. unfold w in Z. apply Rmult_integral in Z. destruct Z as [Z|Z]; [destruct (sg_ok a i Aa Hi); lra|contradiction].
      - assert (Z2 : mv n (Ms a) (fun j => v j - z0 j) i = 0) by (apply Rsqr_0_uniq; unfold Rsqr; lra).
        assert (Z3 : mv n (Ms a) v i - mv n (Ms a) z0 i = 0) by (rewrite <- Z2; unfold mv; rewrite <- rsum_minus; apply rsum_ext; intros; ring).
        rewrite <- (Hr a i Aa Hi Hm). lra. }
    assert (Rv : reproduces d n num Ms b b_mask v) by (intros a i Ha; apply (Pre rows [] ltac:(rewrite app_nil_r; reflexivity) a (rows_all a Ha) i)).
    exists v. split; [exact Fv|]. split; [exact Rv|]. intros eps He.
    destruct (fejer_converges n c (fun k => X (S k)) v c_pos Hv) with (eps := eps) as [N HN]; [intros k; apply sart_fejer; assumption|exact He|].
    exists (S N). intros k Hk. destruct k as [|k]; [lia|]. apply HN. lia.
  Qed.
End Sart.

Theorem C161_sart_converges : forall d n num Ms b b_mask relax lo up xm rows x0,
  sart_setting d n num Ms b_mask relax lo up xm rows -> in_mask n xm (pick_x0 x0 vzeros) ->
  (exists z, feasible lo up xm n z /\ reproduces d n num Ms b b_mask z) ->
  exists v, feasible lo up xm n v /\ reproduces d n num Ms b b_mask v /\
    forall eps, 0 < eps -> exists N, forall k, (N <= k)%nat -> forall j, (j < n)%nat ->
      Rabs (sart_call n d num (sart_mat d n Ms) b b_mask relax x0 lo up xm rows k j - v j) < eps.
Proof. intros d n num Ms b b_mask relax lo up xm rows x0 HS Hx (z & Hz & Hr). exact (sart_limit d n num Ms b b_mask relax lo up xm rows HS x0 Hx z Hz Hr). Qed.

(** every sweep brings the volume closer to every solution *)
Theorem C161_sart_distance : forall d n num Ms b b_mask relax lo up xm rows x0 z k,
  sart_setting d n num Ms b_mask relax lo up xm rows -> in_mask n xm (pick_x0 x0 vzeros) ->
  feasible lo up xm n z -> reproduces d n num Ms b b_mask z ->
  wdist n (view_weight d n Ms b_mask 0) (sart_call n d num (sart_mat d n Ms) b b_mask relax x0 lo up xm rows (S k)) z
  <= wdist n (view_weight d n Ms b_mask 0) (sart_call n d num (sart_mat d n Ms) b b_mask relax x0 lo up xm rows k) z.
Proof. intros d n num Ms b b_mask relax lo up xm rows x0 z k HS Hx Hz Hr. exact (sart_fejer d n num Ms b b_mask relax lo up xm rows HS x0 Hx z k Hz Hr). Qed.

(** * Without equal weights the claim is false: two projections of one pixel each, rows (1,2) and (2,1), exact data of the volume (1,0) *)
Definition skew (a i j : nat) : R := if Nat.eqb a j then 1 else 2.
Theorem C161_sart_skewed_refuted : 
  (exists z, reproduces 1 2 2 skew (fun a _ => if Nat.eqb a 0 then 1 else 2) None z) /\
  (forall z, reproduces 1 2 2 skew (fun a _ => if Nat.eqb a 0 then 1 else 2) None z -> z 0%nat = 1 /\ z 1%nat = 0) /\
  forall rows relax it, let x := sart_call 2 1 2 (sart_mat 1 2 skew) (fun a _ => if Nat.eqb a 0 then 1 else 2) None relax None None None None rows it in
    (forall a, In a rows -> (a < 2)%nat) -> x 0%nat = x 1%nat.
Proof.
  split; [|split].
  - exists (fun j => if Nat.eqb j 0 then 1 else 0). intros a i Ha Hi _. unfold mv, skew. destruct a as [|[|a]]; [| |lia]; simpl; ring.
  - intros z Hz. pose proof (Hz 0%nat 0%nat ltac:(lia) ltac:(lia) ltac:(simpl; lra)) as A. pose proof (Hz 1%nat 0%nat ltac:(lia) ltac:(lia) ltac:(simpl; lra)) as B.
    unfold mv, skew in A, B. simpl in A, B. lra.
  - intros rows relax it x HR. unfold x, sart_call. set (sg := sart_sigma _ _ _ _). set (tu := sart_tau _ _ _ _ _).
    assert (M2 : rmax2 2 2 (fun a j => Rabs (sAt (sart_mat 1 2 skew) (ones_masked (option_map (fun m : nat -> vec => m a) None)) a j)) = 2).
    { unfold rmax2, ones_masked, mul_mask, vones. simpl. unfold mtv, skew. simpl. rewrite !Rplus_0_l, !Rmult_1_r. rewrite !(Rabs_right 1), !(Rabs_right 2) by lra. rewrite (Rmax_right 1 2), (Rmax_left 2 1), Rmax_left by lra. reflexivity. }
    assert (TU : forall a j, (a < 2)%nat -> (j < 2)%nat -> tu a j = relax / skew a 0 j).
    { intros a j Ha Hj. unfold tu, sart_tau, guard_small2. rewrite M2. f_equal.
      assert (V : Rabs (sAt (sart_mat 1 2 skew) (ones_masked (option_map (fun m : nat -> vec => m a) None)) a j) = skew a 0 j).
      { simpl. unfold ones_masked, mtv, mul_mask, vones. simpl. rewrite Rplus_0_l, Rmult_1_r. apply Rabs_right. unfold skew. destruct (Nat.eqb a j); lra. }
      rewrite V. destruct (Rlt_dec _ _) as [H|H]; [|reflexivity]. exfalso. unfold skew in H. destruct (Nat.eqb a j); lra. }
    assert (Row : forall y a, (a < 2)%nat -> y 0%nat = y 1%nat -> let r := sart_row (sart_mat 1 2 skew) (fun a _ => if Nat.eqb a 0 then 1 else 2) None sg tu None None None y a in r 0%nat = r 1%nat).
    { intros y a Ha Hy. unfold sart_row, constrain, mul_mask, np_clip, vsub, vmul. simpl. rewrite !TU by lia. unfold mtv. simpl. rewrite Hy.
      set (q := _ * sg a 0%nat). assert (S1 : skew a 0 0 <> 0) by (unfold skew; destruct (Nat.eqb a 0); lra). assert (S2 : skew a 0 1 <> 0) by (unfold skew; destruct (Nat.eqb a 1); lra). f_equal. field. split; assumption. }
    assert (Sw : forall l y, (forall a, In a l -> (a < 2)%nat) -> y 0%nat = y 1%nat -> let r := sart_sweep (sart_mat 1 2 skew) (fun a _ => if Nat.eqb a 0 then 1 else 2) None sg tu None None None l y in r 0%nat = r 1%nat).
    { induction l as [|a l IH]; intros y Hl Hy; [exact Hy|]. apply (IH _ ltac:(intros q Hq; apply Hl; right; exact Hq)). apply Row; [apply Hl; left; reflexivity|exact Hy]. }
    assert (Main : forall it k y, y 0%nat = y 1%nat -> let r := for_range it k (fun _ x => (sart_sweep (sart_mat 1 2 skew) (fun a _ => if Nat.eqb a 0 then 1 else 2) None sg tu None None None rows x, false)) y in r 0%nat = r 1%nat).
    { clear x. intros it0. induction it0 as [|it' IH]; intros k y Hy; [exact Hy|]. simpl. apply IH. apply Sw; assumption. }
    apply Main. reflexivity.
Qed.

(** Non-vacuity: two projections of a 2-voxel volume, (1,1) seen in one pixel and the two voxels seen separately; limits [0, 10] *)
Definition ex_views (a i j : nat) : R := if Nat.eqb a 0 then (if Nat.eqb i 0 then 1 else 0) else (if Nat.eqb i j then 1 else 0).
Example C161_example : sart_setting 2 2 2 ex_views None (3/2) (Some vzeros) (Some (fun _ => 10)) None [1%nat; 0%nat] /\
  reproduces 2 2 2 ex_views (fun a i => if Nat.eqb a 0 then (if Nat.eqb i 0 then 5 else 0) else (if Nat.eqb i 0 then 2 else 3)) None (fun j => if Nat.eqb j 0 then 2 else 3).
Proof.
  assert (VW : forall a j, (a < 2)%nat -> (j < 2)%nat -> view_weight 2 2 ex_views None a j = 1).
  { intros a j Ha Hj. unfold view_weight, ex_views, bmask_of, mask_at. simpl. destruct a as [|[|a]]; [| |lia]; destruct j as [|[|j]]; try lia; simpl; ring. }
  assert (RM : rmax2 2 2 (view_weight 2 2 ex_views None) = 1).
  { unfold rmax2. simpl. rewrite !VW by lia. rewrite !Rmax_left by lra. reflexivity. }
  assert (RW : forall a i, ray_weight 2 ex_views None a i = (if Nat.eqb a 0 then (if Nat.eqb i 0 then 2 else 0) else if (i <? 2)%nat then 1 else 0)).
  { intros a i. unfold ray_weight, ex_views, mask_at. simpl. destruct a as [|a]; simpl; destruct i as [|[|i]]; simpl; ring. }
  assert (RS : rmax2 2 2 (ray_weight 2 ex_views None) = 2).
  { unfold rmax2. simpl. rewrite !RW. simpl. rewrite (Rmax_left 2 0), (Rmax_left 1 1), Rmax_left by lra. reflexivity. }
  split.
  - constructor.
    + intros a i j _ _ _. unfold ex_views. repeat destruct (Nat.eqb _ _); lra.
    + intros i. right. reflexivity.
    + intros a i. right. reflexivity.
    + intros l u j H1 H2 Hj. injection H1 as <-. injection H2 as <-. unfold vzeros. lra.
    + lra.
    + lia.
    + apply perm_swap.
    + intros a j Ha Hj. rewrite VW, RM by assumption. lra.
    + rewrite RS. lra.
    + intros a i Ha Hi. rewrite RS, RW. destruct (Nat.eqb a 0); destruct (Nat.eqb i 0) eqn:Ei; try lra; destruct (i <? 2)%nat; lra.
    + intros a j Ha Hj. rewrite VW by assumption. lra.
    + intros a a' j Ha Ha' Hj. rewrite !VW by assumption. reflexivity.
  - intros a i Ha Hi _. unfold mv, ex_views. simpl. destruct a as [|[|a]]; [| |lia]; destruct i as [|[|i]]; try lia; simpl; ring.
Qed.
