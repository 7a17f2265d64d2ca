(** * Proofs about materials.py *)
From Coquelicot Require Import Coquelicot.
From Coq Require Import Bool Reals List ZArith Lia Lra Permutation.
From Verif Require Import Base Mat_Model Mat_Spec.
Import ListNotations.
Open Scope R_scope.

Lemma omega_norm_pos : 0 < omega_norm.
Proof. unfold omega_norm. lra. Qed.

(** reduced parameters *)
Definition wp o := o_wP o / omega_norm.
Definition wr o := o_wR o / omega_norm.
Definition gm o := o_g o / omega_norm.
Definition den o k := wr o ^ 2 + k ^ 2 + gm o * k.
Definition chi o k := wp o ^ 2 / den o k.

Lemma scale_nonneg x : 0 <= x -> 0 <= x / omega_norm.
Proof. intros. apply Rmult_le_pos; [assumption|]. apply Rlt_le, Rinv_0_lt_compat, omega_norm_pos. Qed.
Lemma scale_zero x : x / omega_norm = 0 <-> x = 0.
Proof.
  pose proof omega_norm_pos. split; intros E.
  - replace x with (x / omega_norm * omega_norm) by (field; lra). rewrite E. ring.
  - rewrite E. unfold Rdiv. ring.
Qed.

Lemma den_pos o k : physical o -> 0 < k -> 0 < den o k.
Proof.
  intros (H1 & H2 & H3) Hk. unfold den, gm.
  pose proof (pow2_ge_0 (wr o)). assert (0 < k ^ 2) by (apply pow_lt; lra).
  pose proof (scale_nonneg _ H3). assert (0 <= o_g o / omega_norm * k) by (apply Rmult_le_pos; lra). lra.
Qed.

Lemma chi_nonneg o k : physical o -> 0 < k -> 0 <= chi o k.
Proof.
  intros H Hk. unfold chi. apply Rmult_le_pos; [apply pow2_ge_0|].
  apply Rlt_le, Rinv_0_lt_compat. now apply den_pos.
Qed.

Lemma chi_anti o k k' : physical o -> 0 < k -> k <= k' -> chi o k' <= chi o k.
Proof.
  intros H Hk Hkk. unfold chi. apply Rmult_le_compat_l; [apply pow2_ge_0|].
  apply Rinv_le_contravar; [now apply den_pos|]. unfold den.
  assert (k ^ 2 <= k' ^ 2) by (apply pow_incr; lra).
  assert (gm o * k <= gm o * k'). { apply Rmult_le_compat_l; [|assumption]. apply scale_nonneg, H. }
  lra.
Qed.

Lemma eps_spec_chi e k : eps_spec e k = 1 + fold_right Rplus 0 (map (fun o => chi o k) e).
Proof. reflexivity. Qed.

(** ** code = formula *)
Lemma lorentz_fin o k : den o k <> 0 -> lorentz o k = Fin (chi o k).
Proof. intros H. unfold lorentz, xdiv. destruct (Reqb_spec ((o_wR o / omega_norm) ^ 2 + k ^ 2 + o_g o / omega_norm * k) 0); [contradiction|reflexivity]. Qed.

Lemma fold_sum e k : forall a, (forall o, In o e -> den o k <> 0) ->
  fold_left (fun acc o => xadd acc (lorentz o k)) e (Fin a) = Fin (a + fold_right Rplus 0 (map (fun o => chi o k) e)).
Proof.
  induction e as [|o e IH]; intros a H; cbn [fold_left map fold_right].
  - f_equal. ring.
  - rewrite lorentz_fin by (apply H; now left). cbn [xadd]. rewrite IH by (intros; apply H; now right). f_equal. ring.
Qed.

Lemma epsilon1_spec e k : Forall physical e -> 0 < k -> epsilon1 e k = Fin (eps_spec e k).
Proof.
  intros H Hk. unfold epsilon1. rewrite fold_sum; [now rewrite eps_spec_chi|].
  intros o Ho. rewrite Forall_forall in H. pose proof (den_pos o k (H o Ho) Hk). lra.
Qed.

Lemma combine_map_l {A B C} (f : A -> B) (g : A -> C) l : combine (map f l) (map g l) = map (fun x => (f x, g x)) l.
Proof. induction l; cbn; congruence. Qed.

(** whole-array evaluation is elementwise *)
Lemma epsilon_elementwise e ks : epsilon e ks = map (epsilon1 e) ks.
Proof.
  unfold epsilon, epsilon1. generalize (Fin 1) as a. intros a. 
  enough (G : forall f : R -> xr, fold_left (fun acc o => map (fun p => xadd (fst p) (snd p)) (combine acc (map (lorentz o) ks))) e (map f ks)
     = map (fun k => fold_left (fun acc o => xadd acc (lorentz o k)) e (f k)) ks) by (apply (G (fun _ => a))).
  induction e as [|o e IH]; intros f; [reflexivity|]. cbn [fold_left].
  rewrite combine_map_l, map_map. cbn [fst snd]. apply (IH (fun k => xadd (f k) (lorentz o k))).
Qed.

Lemma epsilon_float_spec e k : Forall physical e -> 0 < k -> epsilon_float e k = Ok (eps_spec e k).
Proof.
  intros H Hk. unfold epsilon_float. rewrite eps_spec_chi. generalize 1 as a.
  induction e as [|o e IH]; intros a; cbn [fold_left map fold_right].
  - f_equal. ring.
  - inversion H as [|? ? Ho He]; subst. cbn [bind].
    change ((o_wR o / omega_norm) ^ 2 + k ^ 2 + o_g o / omega_norm * k) with (den o k).
    destruct (Reqb_spec (den o k) 0) as [E|_]; [pose proof (den_pos o k Ho Hk); lra|].
    change ((o_wP o / omega_norm) ^ 2 / den o k) with (chi o k). rewrite IH by assumption. f_equal. ring.
Qed.

(** ** C34 *)
Lemma sum_nonneg l : (forall x, In x l -> 0 <= x) -> 0 <= fold_right Rplus 0 l.
Proof.
  induction l as [|x l IH]; intros H; cbn; [lra|]. pose proof (H x (or_introl eq_refl)).
  assert (0 <= fold_right Rplus 0 l) by (apply IH; intros; apply H; now right). lra.
Qed.

Lemma eps_ge_1 e k : Forall physical e -> 0 < k -> 1 <= eps_spec e k.
Proof.
  intros H Hk. rewrite eps_spec_chi.
  assert (0 <= fold_right Rplus 0 (map (fun o => chi o k) e)); [|lra].
  apply sum_nonneg. intros x Hx. apply in_map_iff in Hx. destruct Hx as (o & <- & Ho).
  rewrite Forall_forall in H. now apply chi_nonneg; [apply H|].
Qed.

Lemma eps_anti e k k' : Forall physical e -> 0 < k -> k <= k' -> eps_spec e k' <= eps_spec e k.
Proof.
  intros H Hk Hkk. rewrite !eps_spec_chi. apply Rplus_le_compat_l.
  induction H as [|o e Ho He IH]; cbn; [lra|]. pose proof (chi_anti o k k' Ho Hk Hkk). lra.
Qed.

(** strictly decreasing if there is any oscillator of nonzero strength *)
Lemma chi_strict o k k' : physical o -> o_wP o <> 0 -> 0 < k -> k < k' -> chi o k' < chi o k.
Proof.
  intros H Hw Hk Hkk. unfold chi. apply Rmult_lt_compat_l.
  - assert (wp o <> 0) by (unfold wp; now rewrite scale_zero).
    rewrite <- Rsqr_pow2. now apply Rsqr_pos_lt.
  - pose proof (den_pos o k H Hk). pose proof (den_pos o k' H ltac:(lra)).
    apply Rinv_lt_contravar; [now apply Rmult_lt_0_compat|]. unfold den.
    assert (k ^ 2 < k' ^ 2) by nra.
    assert (gm o * k <= gm o * k'). { apply Rmult_le_compat_l; [|lra]. apply scale_nonneg, H. }
    lra.
Qed.

Lemma eps_strict e k k' : Forall physical e -> (exists o, In o e /\ o_wP o <> 0) -> 0 < k -> k < k' ->
  eps_spec e k' < eps_spec e k.
Proof.
  intros H (o & Hin & Ho) Hk Hkk. rewrite !eps_spec_chi. apply Rplus_lt_compat_l.
  induction H as [|o' e Ho' He IH]; [contradiction|]. cbn.
  assert (Hle : fold_right Rplus 0 (map (fun o => chi o k') e) <= fold_right Rplus 0 (map (fun o => chi o k) e)).
  { pose proof (eps_anti e k k' He Hk ltac:(lra)) as E. rewrite !eps_spec_chi in E. lra. }
  destruct Hin as [->|Hin].
  - pose proof (chi_strict o k k' Ho' Ho Hk Hkk). lra.
  - pose proof (chi_anti o' k k' Ho' Hk ltac:(lra)). specialize (IH Hin). lra.
Qed.

(** 1 <= eps <= 1 + (sum wP^2)/k^2, hence the limit 1 *)
Lemma chi_upper o k : physical o -> 0 < k -> chi o k <= wp o ^ 2 / k ^ 2.
Proof.
  intros H Hk. unfold chi. apply Rmult_le_compat_l; [apply pow2_ge_0|].
  apply Rinv_le_contravar; [apply pow_lt; lra|]. unfold den. pose proof (pow2_ge_0 (wr o)).
  assert (0 <= gm o * k). { apply Rmult_le_pos; [|lra]. apply scale_nonneg, H. } lra.
Qed.

Lemma eps_upper e k : Forall physical e -> 0 < k ->
  eps_spec e k <= 1 + fold_right Rplus 0 (map (fun o => wp o ^ 2) e) / k ^ 2.
Proof.
  intros H Hk. rewrite eps_spec_chi. apply Rplus_le_compat_l.
  induction H as [|o e Ho He IH]; cbn [map fold_right]; [unfold Rdiv; rewrite Rmult_0_l; lra|].
  pose proof (chi_upper o k Ho Hk).
  replace ((wp o ^ 2 + fold_right Rplus 0 (map (fun o => wp o ^ 2) e)) / k ^ 2)
    with (wp o ^ 2 / k ^ 2 + fold_right Rplus 0 (map (fun o => wp o ^ 2) e) / k ^ 2) by (unfold Rdiv; ring).
  lra.
Qed.

Lemma eps_limit e : Forall physical e -> is_lim (eps_spec e) p_infty 1.
Proof.
  intros H. set (W := fold_right Rplus 0 (map (fun o => wp o ^ 2) e)).
  assert (HW : 0 <= W).
  { apply sum_nonneg. intros x Hx. apply in_map_iff in Hx. destruct Hx as (o & <- & _). apply pow2_ge_0. }
  apply is_lim_spec. intros d. exists (1 + W / d). intros k Hk.
  assert (Hd := cond_pos d).
  assert (HWd : 0 <= W / d) by (apply Rmult_le_pos; [assumption|apply Rlt_le, Rinv_0_lt_compat; assumption]).
  assert (Hk1 : 1 < k) by lra.
  pose proof (eps_ge_1 e k H ltac:(lra)). pose proof (eps_upper e k H ltac:(lra)) as HU. fold W in HU.
  rewrite Rabs_pos_eq by lra.
  assert (W / k ^ 2 < d); [|lra].
  apply (Rmult_lt_reg_r (k ^ 2)); [apply pow_lt; lra|].
  unfold Rdiv at 1. rewrite Rmult_assoc, Rinv_l, Rmult_1_r by (apply pow_nonzero; lra).
  assert (HWk : W < d * k).
  { replace W with (d * (W / d)) by (field; lra). apply Rmult_lt_compat_l; [assumption|lra]. }
  assert (k * 1 < k * k) by (apply Rmult_lt_compat_l; lra).
  assert (d * k < d * k ^ 2) by (apply Rmult_lt_compat_l; [assumption|]; cbn; lra). lra.
Qed.

Lemma eps_app e1 e2 k : eps_spec (e1 ++ e2) k - 1 = (eps_spec e1 k - 1) + (eps_spec e2 k - 1).
Proof.
  rewrite !eps_spec_chi, map_app. induction e1 as [|o e1 IH]; cbn; [ring|]. lra.
Qed.

Lemma eps_perm e1 e2 k : Permutation e1 e2 -> eps_spec e1 k = eps_spec e2 k.
Proof. intros H. rewrite !eps_spec_chi. f_equal. induction H; cbn; lra. Qed.

(** ** C35 *)
Lemma is_dielectric_spec e : is_dielectric e = true <-> forall o, In o e -> o_wP o <> 0 -> o_wR o <> 0.
Proof.
  induction e as [|o e IH]; cbn; [split; auto; intros _ ? []|].
  destruct (Reqb_spec (o_wP o) 0), (Reqb_spec (o_wR o) 0); cbn; rewrite ?IH; split.
  all: try (intros H o' [<-|Hin]; [tauto|now apply H]).
  all: try (intros H o' Hin; apply H; now right).
  - discriminate.
  - intros H. exfalso. apply (H o); auto.
Qed.

Lemma fold_min_in l x : In (fold_left Rmin l x) (x :: l).
Proof.
  revert x. induction l as [|y l IH]; intros x; cbn [fold_left]; [now left|].
  destruct (IH (Rmin x y)) as [E|E]; [|right; now right].
  rewrite <- E. unfold Rmin. destruct (Rle_dec x y); [now left|right; now left].
Qed.
Lemma fold_min_le l x y : In y (x :: l) -> fold_left Rmin l x <= y.
Proof.
  revert x y. induction l as [|z l IH]; intros x y H; cbn [fold_left].
  - destruct H as [->|[]]. lra.
  - assert (fold_left Rmin l (Rmin x z) <= Rmin x z) by (apply IH; now left).
    pose proof (Rmin_l x z). pose proof (Rmin_r x z).
    destruct H as [->|[->|H]]; try lra. apply IH. now right.
Qed.

Lemma is_sigma_finite_spec e : Forall physical e ->
  (is_sigma_finite e = true <-> forall o, In o e -> o_wP o <> 0 -> o_wR o = 0 -> 0 < o_g o).
Proof.
  intros HP. unfold is_sigma_finite.
  assert (Hin : forall g, In g (zero_gammas e) <-> exists o, In o e /\ o_wP o <> 0 /\ o_wR o = 0 /\ o_g o = g).
  { intros g. unfold zero_gammas. rewrite in_map_iff. split.
    - intros (o & <- & Ho). apply filter_In in Ho. destruct Ho as [Ho Hb]. apply andb_true_iff in Hb. destruct Hb as [H1 H2].
      exists o. destruct (Reqb_spec (o_wR o) 0), (Reqb_spec (o_wP o) 0); try discriminate. auto.
    - intros (o & Ho & H1 & H2 & <-). exists o. split; [reflexivity|]. apply filter_In. split; [assumption|].
      destruct (Reqb_spec (o_wR o) 0), (Reqb_spec (o_wP o) 0); try contradiction. reflexivity. }
  assert (Hnn : forall g, In g (zero_gammas e) -> 0 <= g).
  { intros g Hg. apply Hin in Hg. destruct Hg as (o & Ho & _ & _ & <-). rewrite Forall_forall in HP. apply HP. assumption. }
  destruct (zero_gammas e) as [|x l] eqn:E; cbn [min_list].
  - split; [|reflexivity]. intros _ o Ho H1 H2. exfalso. apply (proj2 (Hin (o_g o))). eauto 6.
  - destruct (Reqb_spec (fold_left Rmin l x) 0) as [Hz|Hz]; cbn; split; try discriminate; try reflexivity.
    + intros H. exfalso. pose proof (fold_min_in l x) as Hi. rewrite Hz in Hi. apply Hin in Hi.
      destruct Hi as (o & Ho & H1 & H2 & H3). specialize (H o Ho H1 H2). lra.
    + intros _ o Ho H1 H2. pose proof (fold_min_le l x (o_g o)) as Hle.
      assert (Hx : In (o_g o) (x :: l)) by (apply Hin; eauto 6). specialize (Hle Hx).
      pose proof (Hnn _ (fold_min_in l x)). lra.
Qed.

Lemma sum_member l x : (forall y, In y l -> 0 <= y) -> In x l -> x <= fold_right Rplus 0 l.
Proof.
  induction l as [|y l IH]; intros H Hx; [contradiction|]. cbn.
  pose proof (H y (or_introl eq_refl)). assert (0 <= fold_right Rplus 0 l) by (apply sum_nonneg; intros; apply H; now right).
  destruct Hx as [->|Hx]; [lra|]. assert (x <= fold_right Rplus 0 l) by (apply IH; auto; intros; apply H; now right). lra.
Qed.

Lemma chi_le_eps e o k : Forall physical e -> In o e -> 0 < k -> chi o k <= eps_spec e k - 1.
Proof.
  intros H Ho Hk. rewrite eps_spec_chi.
  assert (chi o k <= fold_right Rplus 0 (map (fun o => chi o k) e)); [|lra].
  apply sum_member; [|now apply (in_map (fun o => chi o k))].
  intros y Hy. apply in_map_iff in Hy. destruct Hy as (o' & <- & Ho'). rewrite Forall_forall in H. apply chi_nonneg; auto.
Qed.

(** bounding a sum of bounded terms *)
Lemma sum_bounded (w : R -> R) e : (forall k, 0 < k < 1 -> 0 <= w k <= 1) -> Forall physical e ->
  (forall o, In o e -> exists B, forall k, 0 < k < 1 -> w k * chi o k <= B) ->
  exists B, forall k, 0 < k < 1 -> w k * eps_spec e k <= B.
Proof.
  intros Hw HP H. induction e as [|o e IH].
  - exists 1. intros k Hk. rewrite eps_spec_chi. cbn. specialize (Hw k Hk). lra.
  - apply Forall_inv_tail in HP. destruct (H o (or_introl eq_refl)) as [B1 H1].
    destruct IH as [B2 H2]; [assumption|intros; apply H; now right|].
    exists (B1 + B2). intros k Hk. specialize (H1 k Hk). specialize (H2 k Hk).
    rewrite eps_spec_chi in *. cbn [map fold_right]. lra.
Qed.

Theorem dielectric_bounded e : Forall physical e ->
  (is_dielectric e = true <-> exists B, forall k, 0 < k < 1 -> eps_spec e k <= B).
Proof.
  intros HP. rewrite is_dielectric_spec. split.
  - intros H. destruct (sum_bounded (fun _ => 1) e) as [B HB]; [intros; lra|assumption| |].
    + intros o Ho. rewrite Forall_forall in HP. specialize (HP o Ho).
      destruct (Req_dec (o_wP o) 0) as [E|E].
      * exists 0. intros k Hk. unfold chi, wp. rewrite E. unfold Rdiv. rewrite Rmult_0_l. lra.
      * exists (wp o ^ 2 / wr o ^ 2). intros k Hk. rewrite Rmult_1_l. unfold chi.
        apply Rmult_le_compat_l; [apply pow2_ge_0|].
        assert (wr o <> 0) by (unfold wr; rewrite scale_zero; auto).
        apply Rinv_le_contravar; [rewrite <- Rsqr_pow2; now apply Rsqr_pos_lt|]. unfold den.
        pose proof (pow2_ge_0 k). assert (0 <= gm o * k). { apply Rmult_le_pos; [|lra]. apply scale_nonneg, HP. } lra.
    + exists B. intros k Hk. specialize (HB k Hk). lra.
  - intros [B HB] o Ho Hw Hr. pose proof HP as HP'. rewrite Forall_forall in HP'. specialize (HP' o Ho).
    assert (Hwp : 0 < wp o ^ 2).
    { assert (wp o <> 0) by (unfold wp; now rewrite scale_zero). rewrite <- Rsqr_pow2. now apply Rsqr_pos_lt. }
    assert (Hg : 0 <= gm o) by (apply scale_nonneg, HP').
    set (C := Rabs B + 1). assert (HC : 0 < C) by (unfold C; pose proof (Rabs_pos B); lra).
    set (k := Rmin (1/2) (wp o ^ 2 / (C * (1 + gm o)))).
    assert (HCg : 0 < C * (1 + gm o)) by (apply Rmult_lt_0_compat; lra).
    assert (Hk0 : 0 < k).
    { unfold k. apply Rmin_glb_lt; [lra|]. apply Rdiv_lt_0_compat; assumption. }
    assert (Hk1 : k <= 1/2) by apply Rmin_l.
    assert (Hk2 : k <= wp o ^ 2 / (C * (1 + gm o))) by apply Rmin_r.
    specialize (HB k ltac:(lra)). pose proof (chi_le_eps e o k HP Ho Hk0) as Hc.
    assert (C <= chi o k).
    { unfold chi. pose proof (den_pos o k HP' Hk0) as Hd. apply (Rmult_le_reg_r (den o k)); [assumption|].
      unfold Rdiv. rewrite Rmult_assoc, Rinv_l, Rmult_1_r by lra.
      unfold den, wr. replace (o_wR o / omega_norm) with 0 by (rewrite Hr; unfold Rdiv; ring).
      apply (Rmult_le_compat_r (C * (1 + gm o))) in Hk2; [|lra].
      unfold Rdiv in Hk2. rewrite Rmult_assoc, Rinv_l, Rmult_1_r in Hk2 by lra.
      assert (0 ^ 2 + k ^ 2 + gm o * k <= k * (1 + gm o)) by nra.
      assert (C * (0 ^ 2 + k ^ 2 + gm o * k) <= C * (k * (1 + gm o))) by (apply Rmult_le_compat_l; lra). lra. }
    assert (B <= Rabs B) by apply Rle_abs. unfold C in *. lra.
Qed.

Theorem sigma_finite_bounded e : Forall physical e ->
  (is_sigma_finite e = true <-> exists B, forall k, 0 < k < 1 -> k * eps_spec e k <= B).
Proof.
  intros HP. rewrite is_sigma_finite_spec by assumption. split.
  - intros H. apply (sum_bounded (fun k => k)); [intros; lra|assumption|].
    intros o Ho. rewrite Forall_forall in HP. specialize (HP o Ho).
    destruct (Req_dec (o_wP o) 0) as [E|E].
    { exists 0. intros k Hk. unfold chi, wp. rewrite E. unfold Rdiv. rewrite Rmult_0_l. lra. }
    destruct (Req_dec (o_wR o) 0) as [E'|E'].
    + assert (Hg : 0 < gm o). { unfold gm. apply Rdiv_lt_0_compat; [now apply H|apply omega_norm_pos]. }
      exists (wp o ^ 2 / gm o). intros k Hk. unfold chi, den, wr. rewrite E'.
      replace (k * (wp o ^ 2 / ((0 / omega_norm) ^ 2 + k ^ 2 + gm o * k))) with (wp o ^ 2 / (k + gm o)).
      * apply Rmult_le_compat_l; [apply pow2_ge_0|]. apply Rinv_le_contravar; lra.
      * replace ((0 / omega_norm) ^ 2 + k ^ 2 + gm o * k) with (k * (k + gm o)) by (unfold Rdiv; ring).
        field. lra.
    + assert (Hr : 0 < wr o ^ 2).
      { assert (wr o <> 0) by (unfold wr; now rewrite scale_zero). rewrite <- Rsqr_pow2. now apply Rsqr_pos_lt. }
      exists (wp o ^ 2 / wr o ^ 2). intros k Hk.
      assert (chi o k <= wp o ^ 2 / wr o ^ 2).
      { unfold chi. apply Rmult_le_compat_l; [apply pow2_ge_0|]. apply Rinv_le_contravar; [assumption|]. unfold den.
        pose proof (pow2_ge_0 k). assert (0 <= gm o * k). { apply Rmult_le_pos; [|lra]. apply scale_nonneg, HP. } lra. }
      pose proof (chi_nonneg o k HP ltac:(lra)). nra.
  - intros [B HB] o Ho Hw Hr. pose proof HP as HP'. rewrite Forall_forall in HP'. specialize (HP' o Ho).
    destruct (Rle_lt_or_eq_dec 0 (o_g o)) as [|Hg]; [apply HP'|assumption|]. exfalso.
    assert (Hwp : 0 < wp o ^ 2).
    { assert (wp o <> 0) by (unfold wp; now rewrite scale_zero). rewrite <- Rsqr_pow2. now apply Rsqr_pos_lt. }
    set (C := Rabs B + 1). assert (HC : 0 < C) by (unfold C; pose proof (Rabs_pos B); lra).
    set (k := Rmin (1/2) (wp o ^ 2 / C)).
    assert (Hk0 : 0 < k). { unfold k. apply Rmin_glb_lt; [lra|]. apply Rdiv_lt_0_compat; assumption. }
    assert (Hk1 : k <= 1/2) by apply Rmin_l.
    assert (Hk2 : k <= wp o ^ 2 / C) by apply Rmin_r.
    specialize (HB k ltac:(lra)). pose proof (chi_le_eps e o k HP Ho Hk0) as Hc.
    assert (Hkc : k * chi o k = wp o ^ 2 / k).
    { unfold chi, den, wr, gm. rewrite Hr, <- Hg.
      replace ((0 / omega_norm) ^ 2 + k ^ 2 + 0 / omega_norm * k) with (k * k) by (unfold Rdiv; ring). field. lra. }
    assert (C <= wp o ^ 2 / k).
    { apply (Rmult_le_reg_r k); [assumption|]. unfold Rdiv. rewrite Rmult_assoc, Rinv_l, Rmult_1_r by lra.
      apply (Rmult_le_compat_r C) in Hk2; [|lra]. unfold Rdiv in Hk2.
      rewrite Rmult_assoc, Rinv_l, Rmult_1_r in Hk2 by lra. lra. }
    assert (k * chi o k <= k * eps_spec e k). { apply Rmult_le_compat_l; lra. }
    assert (B <= Rabs B) by apply Rle_abs. unfold C in *. lra.
Qed.

(** ** C36 *)
Lemma mu1_spec mu0 w k : 0 < w -> 0 <= k -> mu1 (Some (mu0, w)) k = Fin (mu_spec mu0 w k).
Proof.
  intros Hw Hk. pose proof omega_norm_pos. assert (0 < w / omega_norm) by (apply Rdiv_lt_0_compat; assumption).
  unfold mu1. cbn [xdiv]. destruct (Reqb_spec (w / omega_norm) 0); [lra|]. cbn [xadd xdiv].
  assert (0 <= k / (w / omega_norm)). { apply Rmult_le_pos; [assumption|]. apply Rlt_le, Rinv_0_lt_compat. assumption. }
  destruct (Reqb_spec (1 + k / (w / omega_norm)) 0); [lra|]. reflexivity.
Qed.

Lemma mu_static mu0 w : mu_spec mu0 w 0 = mu0.
Proof. unfold mu_spec. unfold Rdiv at 2. rewrite Rmult_0_l, Rplus_0_r. field. Qed.

Lemma mu_between mu0 w k : 0 < w -> 0 <= k -> Rmin 1 mu0 <= mu_spec mu0 w k <= Rmax 1 mu0.
Proof.
  intros Hw Hk. pose proof omega_norm_pos. assert (H1 : 0 < w / omega_norm) by (apply Rdiv_lt_0_compat; assumption).
  unfold mu_spec. set (t := / (1 + k / (w / omega_norm))).
  assert (0 <= k / (w / omega_norm)). { apply Rmult_le_pos; [assumption|]. apply Rlt_le, Rinv_0_lt_compat. assumption. }
  assert (Ht : 0 < t <= 1).
  { unfold t. split; [apply Rinv_0_lt_compat; lra|]. rewrite <- Rinv_1. apply Rinv_le_contravar; lra. }
  change ((mu0 - 1) / (1 + k / (w / omega_norm))) with ((mu0 - 1) * t).
  unfold Rmin, Rmax. destruct (Rle_dec 1 mu0); nra.
Qed.

Lemma mu_limit mu0 w : 0 < w -> is_lim (mu_spec mu0 w) p_infty 1.
Proof.
  intros Hw. pose proof omega_norm_pos. assert (H1 : 0 < w / omega_norm) by (apply Rdiv_lt_0_compat; assumption).
  set (W := w / omega_norm) in *. apply is_lim_spec. intros d. assert (Hd := cond_pos d).
  exists (W * (Rabs (mu0 - 1) / d)). intros k Hk.
  assert (0 <= Rabs (mu0 - 1) / d). { apply Rmult_le_pos; [apply Rabs_pos|]. apply Rlt_le, Rinv_0_lt_compat. assumption. }
  assert (0 <= W * (Rabs (mu0 - 1) / d)) by (apply Rmult_le_pos; lra).
  unfold mu_spec. fold W. replace (1 + (mu0 - 1) / (1 + k / W) - 1) with ((mu0 - 1) / (1 + k / W)) by ring.
  assert (Hkw : Rabs (mu0 - 1) / d < k / W).
  { apply (Rmult_lt_reg_l W); [assumption|]. replace (W * (k / W)) with k by (field; lra). assumption. }
  unfold Rdiv at 1. rewrite Rabs_mult, (Rabs_pos_eq (/ _)) by (apply Rlt_le, Rinv_0_lt_compat; lra).
  apply (Rmult_lt_reg_r (1 + k / W)); [lra|]. rewrite Rmult_assoc, Rinv_l, Rmult_1_r by lra.
  replace (Rabs (mu0 - 1)) with (d * (Rabs (mu0 - 1) / d)) by (field; lra).
  apply Rmult_lt_compat_l; lra.
Qed.

Lemma is_magnetic_spec b : is_magnetic b = Some true <-> exists mu0 w, b = Some (mu0, w) /\ mu0 <> 0.
Proof.
  destruct b as [[mu0 w]|]; cbn.
  - destruct (Reqb_spec mu0 0) as [->|H]; split; try discriminate; eauto.
    intros (? & ? & [= <- <-] & H). congruence.
  - split; [discriminate|]. intros (? & ? & ? & _). discriminate.
Qed.

(** ** LorentzSmith *)
Lemma smith1_fin o k : physical o -> 0 < k -> xadd (Fin 1) (smith1 o k) = Fin (smith_spec o k).
Proof.
  intros H Hk. assert (Hg : 0 <= gm o) by apply scale_nonneg, H.
  unfold smith1. fold (gm o). fold (wp o). unfold xdiv.
  destruct (Reqb_spec (k ^ 2 + gm o * k) 0) as [E|E]; [exfalso; nra|].
  destruct (Reqb_spec (k + gm o) 0) as [E'|E']; [lra|]. cbn [xsub xneg xadd xmul]. unfold smith_spec; fold (wp o); fold (gm o). f_equal. f_equal.
  replace (k ^ 2 + gm o * k) with (k * (k + gm o)) by ring.
  f_equal. replace (k + 0.51 * gm o) with ((k + gm o) - 0.49 * gm o) by lra.
  field. assumption.
Qed.

Lemma smith_ge_1 o k : physical o -> 0 < k -> 1 <= smith_spec o k.
Proof.
  intros H Hk. assert (Hg : 0 <= gm o) by apply scale_nonneg, H. unfold smith_spec; fold (wp o); fold (gm o).
  assert (0 <= wp o ^ 2 / (k * (k + gm o))).
  { apply Rmult_le_pos; [apply pow2_ge_0|]. apply Rlt_le, Rinv_0_lt_compat. apply Rmult_lt_0_compat; lra. }
  assert (0 <= (k + 0.51 * gm o) / (k + gm o)).
  { apply Rmult_le_pos; [lra|]. apply Rlt_le, Rinv_0_lt_compat. lra. }
  nra.
Qed.

Lemma smith_anti o k k' : physical o -> 0 < k -> k <= k' -> smith_spec o k' <= smith_spec o k.
Proof.
  intros H Hk Hkk. assert (Hg : 0 <= gm o) by apply scale_nonneg, H. unfold smith_spec; fold (wp o); fold (gm o). set (g := gm o) in *.
  apply Rplus_le_compat_l.
  assert (E : forall k, 0 < k -> wp o ^ 2 / (k * (k + g)) * ((k + 0.51 * g) / (k + g)) = wp o ^ 2 * ((1 + 0.51 * g / k) * (/ (k + g) * / (k + g)))).
  { intros x Hx. field. lra. }
  rewrite !E by lra. apply Rmult_le_compat_l; [apply pow2_ge_0|].
  assert (I1 : / (k' + g) <= / (k + g)) by (apply Rinv_le_contravar; lra).
  assert (I2 : 0 < / (k' + g)) by (apply Rinv_0_lt_compat; lra).
  assert (I3 : / k' <= / k) by (apply Rinv_le_contravar; lra).
  assert (I4 : 0 < / k') by (apply Rinv_0_lt_compat; lra).
  apply Rmult_le_compat.
  - assert (0 <= 0.51 * g / k'). { apply Rmult_le_pos; lra. } lra.
  - apply Rmult_le_pos; lra.
  - apply Rplus_le_compat_l. apply Rmult_le_compat_l; lra.
  - apply Rmult_le_compat; lra.
Qed.

(** ** C37 *)
Ltac phys := repeat (apply Forall_cons; [split; [|split]; cbn [o_wP o_wR o_g]; try lra|]); try apply Forall_nil.
Lemma metals_physical : Forall (Forall physical) (drude_metals ++ plasma_metals).
Proof. unfold drude_metals, plasma_metals. cbn [app]. repeat (apply Forall_cons; [phys|]). apply Forall_nil. Qed.
Lemma dielectrics_physical : Forall (Forall physical) dielectrics.
Proof.
  unfold dielectrics. repeat (apply Forall_cons; [phys|]); try apply Forall_nil.
  - apply Rmult_le_pos; [apply sqrt_pos|lra].
  - apply Rmult_le_pos; [apply sqrt_pos|lra].
Qed.

Ltac decR := repeat match goal with |- context [Reqb ?a ?b] => destruct (Reqb_spec a b) as [?E|?E]; [try (exfalso; lra)|try (exfalso; lra)] end.
Ltac red1 := cbn [filter map o_wP o_wR o_g andb negb fold_left min_list is_dielectric].
Ltac flags := unfold e_Gold, e_Gold_Bimonte, e_Silver, e_SiC, e_Mercury, e_Gold_plasma, e_Gold_plasma_wp1, e_Gold_plasma_wp01,
  e_Gold_plasma_wp10, e_Silver_plasma, e_SiC_plasma, e_Mercury_plasma, e_MercurySmith_plasma, e_artificial, is_sigma_finite, zero_gammas; red1; decR; red1; decR; red1; reflexivity.
Lemma drude_flags : Forall (fun e => is_sigma_finite e = true /\ is_dielectric e = false) drude_metals.
Proof.
  unfold drude_metals. repeat (apply Forall_cons; [split; [flags|flags]|]). apply Forall_nil.
Qed.
Lemma plasma_flags : Forall (fun e => is_sigma_finite e = false /\ is_dielectric e = false) plasma_metals.
Proof.
  unfold plasma_metals. repeat (apply Forall_cons; [split; [flags|flags]|]). apply Forall_nil.
Qed.
Lemma dielectric_flags : Forall (fun e => is_sigma_finite e = true /\ is_dielectric e = true) dielectrics.
Proof.
  pose proof dielectrics_physical as HP.
  assert (H : Forall (fun e => forall o, In o e -> o_wR o <> 0) dielectrics).
  { unfold dielectrics. repeat (apply Forall_cons; [intros o Ho; cbn [In] in Ho; repeat (destruct Ho as [<-|Ho]; [cbn [o_wR]; lra|]); destruct Ho|]). apply Forall_nil. }
  apply Forall_forall. intros e He. rewrite Forall_forall in H, HP. specialize (H e He). specialize (HP e He). split.
  - apply is_sigma_finite_spec; [assumption|]. intros o Ho _ E. exfalso. exact (H o Ho E).
  - apply is_dielectric_spec. intros o Ho _. now apply H.
Qed.

(** ** k = 0 *)
Lemma static_fold e : Forall physical e -> (forall o, In o e -> o_wP o <> 0) ->
  forall a, a = PInf \/ (exists r, a = Fin r) ->
  fold_left (fun acc o => xadd acc (lorentz o 0)) e a =
  match a with
  | Fin r => if is_dielectric e then Fin (r + fold_right Rplus 0 (map (fun o => chi o 0) e)) else PInf
  | x => x
  end.
Proof.
  intros HP Hw. induction e as [|o e IH]; intros a Ha; cbn [fold_left map fold_right is_dielectric].
  { destruct Ha as [->|[r ->]]; [reflexivity|]. f_equal. ring. }
  assert (Hwp : wp o <> 0) by (unfold wp; rewrite scale_zero; apply Hw; now left).
  assert (E : lorentz o 0 = if Reqb (o_wR o) 0 then PInf else Fin (chi o 0)).
  { destruct (Reqb_spec (o_wR o) 0) as [E|E].
    - unfold lorentz, xdiv. rewrite E.
      destruct (Reqb_spec ((0 / omega_norm) ^ 2 + 0 ^ 2 + o_g o / omega_norm * 0) 0) as [_|N].
      + fold (wp o). destruct (Reqb_spec (wp o ^ 2) 0) as [Z|Z].
        * exfalso. apply Hwp. rewrite <- Rsqr_pow2 in Z. now apply Rsqr_0_uniq.
        * destruct (Rltb_spec 0 (wp o ^ 2)); [reflexivity|]. pose proof (pow2_ge_0 (wp o)). lra.
      + exfalso. apply N. unfold Rdiv. ring.
    - apply lorentz_fin. unfold den. assert (wr o <> 0) by (unfold wr; now rewrite scale_zero).
      intros Z. apply H. apply Rsqr_0_uniq. rewrite Rsqr_pow2. lra. }
  rewrite E. destruct (Reqb_spec (o_wP o) 0) as [Z|_]; [exfalso; now apply (Hw o (or_introl eq_refl))|]. cbn [negb andb].
  inversion HP as [|? ? Ho He]; subst.
  rewrite IH; auto.
  - destruct (Reqb (o_wR o) 0), Ha as [->|[r ->]]; cbn [xadd]; try reflexivity.
    destruct (is_dielectric e); [f_equal; ring|reflexivity].
  - intros; apply Hw; now right.
  - destruct (Reqb (o_wR o) 0), Ha as [->|[r ->]]; cbn [xadd]; eauto.
Qed.

Theorem static_epsilon e : Forall physical e -> (forall o, In o e -> o_wP o <> 0) ->
  epsilon1 e 0 = if is_dielectric e then Fin (eps_spec e 0) else PInf.
Proof.
  intros HP Hw. unfold epsilon1. rewrite static_fold by eauto. reflexivity.
Qed.

Theorem static_epsilon_float e : Forall physical e ->
  epsilon_float e 0 = if forallb (fun o => negb (Reqb (o_wR o) 0)) e then Ok (eps_spec e 0) else Err ZeroDivisionError.
Proof.
  intros HP. unfold epsilon_float. rewrite eps_spec_chi.
  assert (G : forall (acc : res R), (exists x, acc = Ok x) \/ acc = Err ZeroDivisionError ->
    fold_left (fun acc o => do a <- acc ;
      if Reqb ((o_wR o / omega_norm) ^ 2 + 0 ^ 2 + o_g o / omega_norm * 0) 0 then Err ZeroDivisionError
      else Ok (a + (o_wP o / omega_norm) ^ 2 / ((o_wR o / omega_norm) ^ 2 + 0 ^ 2 + o_g o / omega_norm * 0))) e acc =
    match acc with
    | Ok a => if forallb (fun o => negb (Reqb (o_wR o) 0)) e then Ok (a + fold_right Rplus 0 (map (fun o => chi o 0) e)) else Err ZeroDivisionError
    | x => x
    end).
  { clear HP. induction e as [|o e IH]; intros acc Ha; cbn [fold_left map fold_right forallb].
    { destruct Ha as [[x ->]| ->]; [|reflexivity]. f_equal. ring. }
    assert (E : Reqb ((o_wR o / omega_norm) ^ 2 + 0 ^ 2 + o_g o / omega_norm * 0) 0 = Reqb (o_wR o) 0).
    { destruct (Reqb_spec (o_wR o) 0) as [E|E].
      - rewrite E. match goal with |- Reqb ?x 0 = _ => destruct (Reqb_spec x 0) as [|N] end; [reflexivity|].
        exfalso. apply N. unfold Rdiv. ring.
      - match goal with |- Reqb ?x 0 = _ => destruct (Reqb_spec x 0) as [N|] end; [|reflexivity].
        exfalso. assert (wr o <> 0) by (unfold wr; now rewrite scale_zero). apply H. apply Rsqr_0_uniq.
        rewrite Rsqr_pow2. unfold wr. lra. }
    rewrite IH.
    - rewrite E. destruct Ha as [[x ->]| ->]; [|reflexivity]. cbn [bind].
      destruct (Reqb (o_wR o) 0); cbn [negb andb]; [reflexivity|].
      destruct (forallb _ e); [|reflexivity]. f_equal. unfold chi at 2. unfold den, wp, wr, gm. ring.
    - rewrite E. destruct Ha as [[x ->]| ->]; cbn [bind]; [|now right]. destruct (Reqb (o_wR o) 0); eauto. }
  rewrite G by eauto. reflexivity.
Qed.
