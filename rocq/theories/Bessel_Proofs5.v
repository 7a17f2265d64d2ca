(** * Taylor branches for small arguments, and the limit of large arguments *)
From Coq Require Import Reals Factorial.
From Coquelicot Require Import Coquelicot.
From Coq Require Import Bool ZArith List Lia Lra.
From Verif Require Import Base Bessel_Model Bessel_Spec Bessel_Proofs Bessel_Proofs2 Bessel_Proofs3 Bessel_Proofs4.
Import ListNotations.
Open Scope R_scope.

(** ** logarithm bounds *)
Lemma nonneg_from_0 (f g : R -> R) u : 0 <= u -> f 0 = 0 -> (forall v, 0 <= v -> is_derive f v (g v)) -> (forall v, 0 <= v -> 0 <= g v) -> 0 <= f u.
Proof.
  intros Hu H0 Hd Hg. destruct (MVT_gen f 0 u g) as [c [Hc E]].
  - intros v Hv. apply Hd. rewrite Rmin_left in Hv by assumption. lra.
  - intros v Hv. rewrite Rmin_left in Hv by assumption. apply derivable_continuous_pt. exists (g v). apply is_derive_Reals, Hd. lra.
  - rewrite Rmin_left in Hc by assumption. rewrite H0 in E. assert (0 <= g c * (u - 0)) by (apply Rmult_le_pos; [apply Hg|]; lra). lra.
Qed.
Lemma ln_ge2 u : 0 <= u -> u - u ^ 2 / 2 <= ln (1 + u).
Proof.
  intros H. cut (0 <= ln (1 + u) - (u - u ^ 2 / 2)); [lra|].
  apply (nonneg_from_0 (fun u => ln (1 + u) - (u - u ^ 2 / 2)) (fun v => v ^ 2 / (1 + v)) u H).
  - rewrite Rplus_0_r, ln_1. lra.
  - intros v Hv. auto_derive; [lra|]. field. lra.
  - intros v Hv. apply Rmult_le_pos; [apply pow2_ge_0|left; apply Rinv_0_lt_compat; lra].
Qed.
Lemma ln_le3 u : 0 <= u -> ln (1 + u) <= u - u ^ 2 / 2 + u ^ 3 / 3.
Proof.
  intros H. cut (0 <= (u - u ^ 2 / 2 + u ^ 3 / 3) - ln (1 + u)); [lra|].
  apply (nonneg_from_0 (fun u => (u - u ^ 2 / 2 + u ^ 3 / 3) - ln (1 + u)) (fun v => v ^ 3 / (1 + v)) u H).
  - rewrite Rplus_0_r, ln_1. lra.
  - intros v Hv. auto_derive; [lra|]. field. lra.
  - intros v Hv. apply Rmult_le_pos; [apply pow_le; lra|left; apply Rinv_0_lt_compat; lra].
Qed.
Lemma ln_ge4 u : 0 <= u -> u - u ^ 2 / 2 + u ^ 3 / 3 - u ^ 4 / 4 <= ln (1 + u).
Proof.
  intros H. cut (0 <= ln (1 + u) - (u - u ^ 2 / 2 + u ^ 3 / 3 - u ^ 4 / 4)); [lra|].
  apply (nonneg_from_0 (fun u => ln (1 + u) - (u - u ^ 2 / 2 + u ^ 3 / 3 - u ^ 4 / 4)) (fun v => v ^ 4 / (1 + v)) u H).
  - rewrite Rplus_0_r, ln_1. lra.
  - intros v Hv. auto_derive; [lra|]. field. lra.
  - intros v Hv. apply Rmult_le_pos; [apply pow_le; lra|left; apply Rinv_0_lt_compat; lra].
Qed.

(** ** truncation of the power series *)
Lemma icoef_ratio l m : icoef l m = icoef l (S m) * (2 * (INR m + 1)) * (2 * INR (l + m) + 3).
Proof. rewrite icoef_S. rewrite (icoef_up l m). generalize (pos_INR m). intros. field. lra. Qed.
Lemma icoef_tail l n k : icoef l (n + k) <= icoef l n / INR (fact k).
Proof.
  induction k as [|k IH]; [rewrite Nat.add_0_r; simpl; lra|].
  rewrite Nat.add_succ_r. generalize (icoef_pos l (S (n + k))) (icoef_ratio l (n + k)) (pos_INR (l + (n + k))) (pos_INR k). intros P E N K.
  rewrite fact_simpl, mult_INR, S_INR. generalize (INR_fact_lt_0 k). intros F.
  apply Rmult_le_reg_r with (INR k + 1); [lra|].
  replace (icoef l n / ((INR k + 1) * INR (fact k)) * (INR k + 1)) with (icoef l n / INR (fact k)) by (field; lra).
  apply Rle_trans with (2 := IH). rewrite E, Rmult_assoc. apply Rmult_le_compat_l; [lra|]. rewrite plus_INR. generalize (pos_INR n). intros.
  apply Rle_trans with ((INR k + 1) * 1); [lra|]. apply Rmult_le_compat; lra.
Qed.
Lemma tail_range (b : nat -> R) y : 0 <= y <= 1 -> (forall k, 0 <= b k <= b 0%nat / INR (fact k)) -> 0 <= PSeries b y <= 3 * b 0%nat.
Proof.
  intros Hy Hb. assert (B0 : 0 <= b 0%nat) by apply Hb.
  assert (E : is_pseries (fun k => b 0%nat * / INR (fact k)) y (b 0%nat * exp y)).
  { apply (is_pseries_scal (V := R_NormedModule) (b 0%nat) (fun k => / INR (fact k)) y (exp y)); [apply Rmult_comm|apply is_exp_Reals]. }
  assert (EX : ex_series (fun k => b 0%nat * / INR (fact k) * y ^ k)).
  { exists (b 0%nat * exp y). apply is_pseries_R. exact E. }
  assert (T : forall k, 0 <= b k * y ^ k <= b 0%nat * / INR (fact k) * y ^ k).
  { intros k. generalize (pow_le y k (proj1 Hy)) (Hb k). unfold Rdiv. intros Y [B1 B2]. split; [now apply Rmult_le_pos|now apply Rmult_le_compat_r]. }
  assert (EX2 : ex_series (fun k => b k * y ^ k)).
  { apply (@ex_series_le R_AbsRing R_CompleteNormedModule _ (fun k => b 0%nat * / INR (fact k) * y ^ k)); [|exact EX].
    intros k. change (Rabs (b k * y ^ k) <= b 0%nat * / INR (fact k) * y ^ k). rewrite Rabs_pos_eq; apply T. }
  unfold PSeries. split.
  - apply Rle_trans with (Series (fun k => 0 * (b k * y ^ k))); [rewrite Series_scal_l; lra|].
    apply Series_le; [|exact EX2]. intros k. generalize (T k). lra.
  - apply Rle_trans with (Series (fun k => b 0%nat * / INR (fact k) * y ^ k)); [now apply Series_le|].
    rewrite (is_series_unique _ (b 0%nat * exp y)) by (apply is_pseries_R; exact E).
    rewrite Rmult_comm. apply Rmult_le_compat_r; [assumption|].
    apply Rle_trans with (exp 1); [|apply exp_le_3]. destruct (Req_dec y 1) as [->|]; [lra|]. left. apply exp_increasing. lra.
Qed.

Lemma PSeries_tail l n y : 0 <= y <= 1 ->
  exists T, 0 <= T <= 3 * icoef l n /\ PSeries (icoef l) y = sum_f_R0 (fun k => icoef l k * y ^ k) n - icoef l n * y ^ n + y ^ n * T.
Proof.
  intros Hy. exists (PSeries (fun k => icoef l (n + k)) y). split.
  - generalize (tail_range (fun k => icoef l (n + k)) y Hy). rewrite Nat.add_0_r. intros H. apply H.
    intros k. split; [left; apply icoef_pos|apply icoef_tail].
  - induction n as [|n IH].
    + change (PSeries (fun k => icoef l (0 + k)) y) with (PSeries (icoef l) y). cbn [sum_f_R0 pow]. ring.
    + rewrite IH. rewrite (PSeries_decr_1 (fun k => icoef l (n + k))).
      * rewrite Nat.add_0_r. rewrite (PSeries_ext (PS_decr_1 (fun k => icoef l (n + k))) (fun k => icoef l (S n + k))).
        -- cbn [sum_f_R0 pow]. ring.
        -- intros k. unfold PS_decr_1. f_equal. lia.
      * apply ex_below_exp; [lra|]. intros k. split; [left; apply icoef_pos|]. apply Rle_trans with (1 := icoef_tail l n k).
        unfold Rdiv. rewrite <- (Rmult_1_l (/ INR (fact k))) at 2. apply Rmult_le_compat_r; [left; apply Rinv_0_lt_compat, INR_fact_lt_0|].
        apply Rle_trans with (1 := icoef_le l n). apply inv_le_1. apply fact_ge1.
Qed.
Lemma ic0 : icoef 0 0 = 1 /\ icoef 0 1 = / 6 /\ icoef 0 2 = / 120 /\ icoef 0 3 = / 5040 /\ icoef 0 4 = / 362880.
Proof. unfold icoef. cbn [Nat.add odd_fact fact Nat.mul pow INR]. repeat split; field. Qed.
Lemma ic1 : icoef 1 0 = / 3 /\ icoef 1 1 = / 30 /\ icoef 1 2 = / 840 /\ icoef 1 3 = / 45360.
Proof. unfold icoef. cbn [Nat.add odd_fact fact Nat.mul pow INR]. repeat split; field. Qed.

(** powers of t <= 1e-6 *)
Lemma tpow t k : 0 < t <= 1e-6 -> 0 < t ^ S k <= 1e-6 * t ^ k.
Proof. intros H. generalize (pow_lt t k (proj1 H)). intros P. cbn [pow]. split; [apply Rmult_lt_0_compat; lra|apply Rmult_le_compat_r; lra]. Qed.
Ltac tpows t H := generalize (tpow t 0 H) (tpow t 1 H) (tpow t 2 H) (tpow t 3 H) (tpow t 4 H) (tpow t 5 H) (tpow t 6 H) (tpow t 7 H) (tpow t 8 H) (tpow t 9 H) (tpow t 10 H) (tpow t 11 H).

Lemma i0_taylor t : 0 < t <= 1e-6 ->
  Rabs (t / 6 - t ^ 2 / 180 - ln (PSeries (icoef 0) t)) <= t ^ 3 / 1000 /\
  Rabs (t / 6 - t ^ 2 / 180 + t ^ 3 / 2835 - ln (PSeries (icoef 0) t)) <= t ^ 4 / 5000.
Proof.
  intros Ht. destruct (PSeries_tail 0 4 t) as [T [HT E]]; [lra|]. destruct ic0 as [C0 [C1 [C2 [C3 C4]]]].
  rewrite C4 in HT. cbn [sum_f_R0] in E. rewrite C0, C1, C2, C3, C4 in E.
  set (UL := t / 6 + t ^ 2 / 120 + t ^ 3 / 5040). set (UU := UL + t ^ 4 * (3 / 362880)).
  assert (E2 : PSeries (icoef 0) t = 1 + UL + t ^ 4 * T) by (rewrite E; unfold UL; simpl; field).
  tpows t Ht. intros. assert (0 < UL) by (unfold UL; lra).
  assert (L0 : 0 <= t ^ 4 * T <= t ^ 4 * (3 / 362880)) by (split; [apply Rmult_le_pos|apply Rmult_le_compat_l]; lra).
  assert (L1 : ln (1 + UL) <= ln (PSeries (icoef 0) t)) by (rewrite E2; apply ln_le; lra).
  assert (L2 : ln (PSeries (icoef 0) t) <= ln (1 + UU)) by (rewrite E2; apply ln_le; unfold UU; lra).
  generalize (ln_ge4 UL ltac:(lra)) (ln_le3 UU ltac:(unfold UU; lra)). intros G1 G2.
  unfold UU, UL in *. clear E E2 L0 HT C0 C1 C2 C3 C4. split; apply Rabs_le; split; lra.
Qed.
Lemma i1_taylor t : 0 < t <= 1e-6 ->
  Rabs (- ln 3 + 0.1 * t - ln (PSeries (icoef 1) t)) <= t ^ 2 / 600 /\
  Rabs (- ln 3 + 0.1 * t - t ^ 2 / 700 - ln (PSeries (icoef 1) t)) <= t ^ 3 / 1000.
Proof.
  intros Ht. destruct (PSeries_tail 1 3 t) as [T [HT E]]; [lra|]. destruct ic1 as [C0 [C1 [C2 C3]]].
  rewrite C3 in HT. cbn [sum_f_R0] in E. rewrite C0, C1, C2, C3 in E.
  set (UL := t / 10 + t ^ 2 / 280). set (UU := UL + t ^ 3 * (9 / 45360)).
  assert (E2 : PSeries (icoef 1) t = / 3 * (1 + (UL + t ^ 3 * (3 * T)))) by (rewrite E; unfold UL; simpl; field).
  tpows t Ht. intros. assert (0 < UL) by (unfold UL; lra).
  assert (L0 : 0 <= t ^ 3 * (3 * T) <= t ^ 3 * (9 / 45360)) by (split; [apply Rmult_le_pos|apply Rmult_le_compat_l]; lra).
  assert (E3 : ln (PSeries (icoef 1) t) = - ln 3 + ln (1 + (UL + t ^ 3 * (3 * T)))) by (rewrite E2, ln_mult, ln_Rinv by lra; reflexivity).
  assert (L1 : ln (1 + UL) <= ln (1 + (UL + t ^ 3 * (3 * T)))) by (apply ln_le; lra).
  assert (L2 : ln (1 + (UL + t ^ 3 * (3 * T))) <= ln (1 + UU)) by (apply ln_le; unfold UU; lra).
  generalize (ln_ge2 UL ltac:(lra)) (ln_le3 UU ltac:(unfold UU; lra)). intros G1 G2. rewrite E3.
  set (Y := ln (1 + (UL + t ^ 3 * (3 * T)))) in *. clearbody Y.
  unfold UU, UL in *. clear E E2 E3 L0 HT C0 C1 C2 C3. split; apply Rabs_le; split; lra.
Qed.

Lemma sq_small t : 0 < t <= 1e-3 -> 0 < t ^ 2 <= 1e-6.
Proof. intros H. split; [apply pow_lt; lra|]. replace 1e-6 with (1e-3 * 1e-3) by lra. replace (t ^ 2) with (t * t) by ring. apply Rmult_le_compat; lra. Qed.
Lemma small_0 t : 0 < t <= 1e-3 ->
  Rabs (i0sm t - ln (sph_i 0 t)) <= t ^ 6 / 1000 /\ Rabs (i0sm_mixed t - ln (sph_i 0 t)) <= t ^ 8 / 5000.
Proof.
  intros H. destruct (i0_taylor (t ^ 2) (sq_small t H)) as [A1 A2]. unfold i0sm, i0sm_mixed, sph_i. cbn [pow] in *. rewrite !Rmult_1_l.
  set (L := ln _) in *. rewrite !Rmult_1_r in *.
  split; [eapply Rle_trans; [|apply Rle_trans with (1 := A1)]|eapply Rle_trans; [|apply Rle_trans with (1 := A2)]]; right; try (apply f_equal); field.
Qed.
Lemma small_1 t : 0 < t <= 1e-3 ->
  Rabs (i1sm t - ln (sph_i 1 t)) <= t ^ 4 / 600 /\ Rabs (i1sm_mixed t - ln (sph_i 1 t)) <= t ^ 6 / 1000.
Proof.
  intros H. destruct (i1_taylor (t ^ 2) (sq_small t H)) as [A1 A2].
  assert (E : ln (sph_i 1 t) = ln t + ln (PSeries (icoef 1) (t ^ 2))).
  { generalize (sph_i_pos 1 t ltac:(lra)). unfold sph_i. rewrite pow_1. intros P. apply ln_mult; [lra|].
    apply Rmult_lt_reg_l with t; [lra|]. lra. }
  rewrite E. unfold i1sm, i1sm_mixed. set (L := ln (PSeries _ _)) in *. clearbody L.
  split; [eapply Rle_trans; [|apply Rle_trans with (1 := A1)]|eapply Rle_trans; [|apply Rle_trans with (1 := A2)]]; right; try (apply f_equal); field.
Qed.

(** ** large arguments: the fractions with an even number of terms miss the limit *)
Notation lim_inf f v := (is_lim f p_infty (Finite v)).
Lemma lim_ext_pos (f g : R -> R) v : (forall x, 0 < x -> f x = g x) -> lim_inf f v -> lim_inf g v.
Proof. intros H. apply is_lim_ext_loc. exists 0. exact H. Qed.
Lemma lim_val f a b : a = b -> lim_inf f a -> lim_inf f b.
Proof. now intros ->. Qed.
Lemma lim_plus f g a b : lim_inf f a -> lim_inf g b -> lim_inf (fun x => f x + g x) (a + b).
Proof. intros. now apply (is_lim_plus f g p_infty a b). Qed.
Lemma lim_minus f g a b : lim_inf f a -> lim_inf g b -> lim_inf (fun x => f x - g x) (a - b).
Proof. intros. now apply (is_lim_minus f g p_infty a b). Qed.
Lemma lim_mult f g a b : lim_inf f a -> lim_inf g b -> lim_inf (fun x => f x * g x) (a * b).
Proof. intros. now apply (is_lim_mult f g p_infty a b). Qed.
Lemma lim_inv f a : a <> 0 -> lim_inf f a -> lim_inf (fun x => / f x) (/ a).
Proof. intros Ha H. apply (is_lim_inv f p_infty a H). intros E. apply Ha. injection E. auto. Qed.
Lemma lim_const a : lim_inf (fun _ => a) a.
Proof. apply is_lim_const. Qed.
Lemma lim_over c : lim_inf (fun x => c / x) 0.
Proof.
  replace 0 with (c * 0) by ring. apply (lim_mult (fun _ => c) (fun x => / x)); [apply lim_const|].
  apply (is_lim_inv (fun x => x) p_infty p_infty); [apply is_lim_id|discriminate].
Qed.
Lemma lim_em2 : lim_inf (fun x => exp (- 2 * x)) 0.
Proof.
  apply (is_lim_comp exp (fun x => - 2 * x) p_infty 0 m_infty); [apply is_lim_exp_m| |].
  - replace m_infty with (Rbar_mult (- 2) p_infty).
    + apply (is_lim_scal_l (fun x => x)). apply is_lim_id.
    + unfold Rbar_mult, Rbar_mult'. destruct (Rle_dec 0 (-2)) as [L|L]; [exfalso; lra|]. reflexivity.
  - exists 0. intros. discriminate.
Qed.
(** i_{l+1}/i_l -> 1 *)
Lemma lim_s l : lim_inf (fun x => sph_i (S l) x / sph_i l x) 1.
Proof.
  induction l as [|l IH].
  - apply (lim_ext_pos (fun x => (1 + exp (- 2 * x)) * / (1 - exp (- 2 * x)) - 1 / x)).
    + intros x Hx. rewrite sph_i_0, sph_i_1 by assumption. unfold sinh, cosh.
      assert (E : exp (- 2 * x) = exp (- x) * / exp x) by (rewrite <- exp_Ropp, <- exp_plus; f_equal; ring). rewrite E.
      assert (Q : 0 < exp x - exp (- x)) by (apply Rlt_Rminus, exp_increasing; lra). generalize (exp_pos x). intros P.
      field. repeat split; lra.
    + apply (lim_val _ ((1 + 0) * / (1 - 0) - 0)); [lra|]. apply lim_minus; [|apply lim_over].
      apply lim_mult; [apply lim_plus|apply lim_inv; [lra|apply lim_minus]]; try apply lim_const; apply lim_em2.
  - apply (lim_ext_pos (fun x => / (sph_i (S l) x / sph_i l x) - (2 * INR l + 3) / x)).
    + intros x Hx. rewrite (sph_i_rec l x Hx). generalize (sph_i_pos (S l) x Hx) (sph_i_pos (S (S l)) x Hx) (pos_INR l). intros P1 P2 P3.
      assert (0 < sph_i (S (S l)) x * x + (2 * INR l + 3) * sph_i (S l) x) by (apply Rplus_lt_0_compat; apply Rmult_lt_0_compat; lra).
      field. repeat split; lra.
    + apply (lim_val _ (/ 1 - 0)); [lra|]. apply lim_minus; [|apply lim_over]. apply lim_inv; [lra|exact IH].
Qed.
Lemma lim_rho l : lim_inf (fun x => rho x l) 1.
Proof.
  assert (H : lim_inf (fun x => / rho x l) 1).
  { induction l as [|l IH].
    - apply (lim_ext_pos (fun x => 1 + 1 / x)).
      + intros x Hx. unfold rho. rewrite sph_k_0, sph_k_1 by assumption. generalize (exp_pos (- x)) PI_RGT_0. intros. field. repeat split; try lra.
      + apply (lim_val _ (1 + 0)); [lra|]. apply lim_plus; [apply lim_const|apply lim_over].
    - apply (lim_ext_pos (fun x => / (/ rho x l) + (2 * INR l + 3) / x)).
      + intros x Hx. unfold rho. rewrite (sph_k_rec l x) by lra. generalize (sph_k_pos l x Hx) (sph_k_pos (S l) x Hx) (pos_INR l). intros.
        assert (0 < sph_k l x * x + (2 * INR l + 3) * sph_k (S l) x) by (apply Rplus_lt_0_compat; apply Rmult_lt_0_compat; lra).
        field. repeat split; try lra.
      + apply (lim_val _ (/ 1 + 0)); [lra|]. apply lim_plus; [|apply lim_over]. apply lim_inv; [lra|exact IH]. }
  apply (lim_ext_pos (fun x => / (/ rho x l))); [intros; apply Rinv_inv|]. apply (lim_val _ (/ 1)); [lra|]. apply lim_inv; [lra|exact H].
Qed.

(** odd fractions -> 0, even fractions -> infinity *)
Lemma cfrac_inf n : forall m,
  (Nat.even (S n) = true -> forall M, exists X, 0 < X /\ forall x, X < x -> M < cfrac x m (S n)) /\
  (Nat.odd (S n) = true -> forall e, 0 < e -> exists X, 0 < X /\ forall x, X < x -> cfrac x m (S n) < e).
Proof.
  induction n as [|n IH]; intros m.
  - split; [discriminate|]. intros _ e He. exists ((2 * INR m + 1) / e). generalize (pos_INR m). intros P.
    split; [apply Rdiv_lt_0_compat; lra|]. intros x Hx. rewrite cfrac_1. unfold A.
    assert (0 < (2 * INR m + 1) / e) by (apply Rdiv_lt_0_compat; lra).
    apply Rmult_lt_reg_r with x; [lra|]. unfold Rdiv. rewrite Rmult_assoc, Rinv_l by lra.
    apply (Rmult_lt_compat_r e) in Hx; [|assumption]. unfold Rdiv in Hx. rewrite Rmult_assoc, Rinv_l in Hx by lra. lra.
  - rewrite (Nat.even_succ (S n)), (Nat.odd_succ (S n)). destruct (IH (S m)) as [I1 I2]. split; intros H.
    + intros M. destruct (I2 H (/ (Rabs M + 1))) as [X [HX I]]; [apply Rinv_0_lt_compat; generalize (Rabs_pos M); lra|].
      exists X. split; [assumption|]. intros x Hx. specialize (I x Hx). rewrite cfrac_SS.
      assert (Px : 0 < x) by lra. generalize (A_pos x Px m) (cfrac_pos x Px n (S m)) (Rabs_pos M) (Rle_abs M). intros A1 A2 A3 A4.
      assert (Rabs M + 1 < 1 / cfrac x (S m) (S n)).
      { unfold Rdiv. rewrite Rmult_1_l. rewrite <- (Rinv_inv (Rabs M + 1)). apply Rinv_lt_contravar; [|assumption].
        apply Rmult_lt_0_compat; [assumption|apply Rinv_0_lt_compat; lra]. }
      lra.
    + intros e He. destruct (I1 H (2 / e)) as [X [HX I]]. generalize (pos_INR m). intros P.
      exists (X + (2 * INR m + 1) / (e / 2)). assert (0 < (2 * INR m + 1) / (e / 2)) by (apply Rdiv_lt_0_compat; lra).
      split; [lra|]. intros x Hx. rewrite cfrac_SS. specialize (I x ltac:(lra)).
      assert (T1 : A x m < e / 2).
      { unfold A. apply Rmult_lt_reg_r with x; [lra|]. unfold Rdiv at 1. rewrite Rmult_assoc, Rinv_l by lra.
        assert (Hx' : (2 * INR m + 1) / (e / 2) < x) by lra. apply (Rmult_lt_compat_r (e / 2)) in Hx'; [|lra].
        unfold Rdiv at 1 in Hx'. rewrite Rmult_assoc, Rinv_l in Hx' by lra. lra. }
      assert (T2 : 1 / cfrac x (S m) (S n) < e / 2).
      { replace (e / 2) with (/ (2 / e)) by (field; lra). unfold Rdiv at 1. rewrite Rmult_1_l. assert (0 < 2 / e) by (apply Rdiv_lt_0_compat; lra).
        apply Rinv_lt_contravar; [apply Rmult_lt_0_compat|]; lra. }
      lra.
Qed.
Lemma cfrac_inv_lim n m : Nat.even (S n) = true -> lim_inf (fun x => / cfrac x m (S n)) 0.
Proof.
  intros H. apply (is_lim_inv (fun x => cfrac x m (S n)) p_infty p_infty); [|discriminate].
  apply is_lim_spec. intros M. destruct (proj1 (cfrac_inf n m) H M) as [X [_ HX]]. exists X. exact HX.
Qed.
Theorem err_limit l K : lim_inf (fun x => err x l (cfrac x (S l) (2 * K + 2))) (ln 2).
Proof.
  set (g := fun x => (1 + rho x l * (sph_i (S l) x / sph_i l x)) * / (1 + rho x l * / cfrac x (S l) (2 * K + 2))).
  assert (G : lim_inf g 2).
  { unfold g. apply (lim_val _ ((1 + 1 * 1) * / (1 + 1 * 0))); [field|].
    apply lim_mult; [apply lim_plus; [apply lim_const|apply lim_mult; [apply lim_rho|apply lim_s]]|].
    apply lim_inv; [lra|]. apply lim_plus; [apply lim_const|]. apply lim_mult; [apply lim_rho|].
    replace (2 * K + 2)%nat with (S (2 * K + 1)) by lia. apply cfrac_inv_lim. replace (S (2 * K + 1)) with (2 * K + 2)%nat by lia. apply even_form. }
  apply (lim_ext_pos (fun x => ln (g x))).
  - intros x Hx. rewrite err_form; [|assumption|replace (2 * K + 2)%nat with (S (2 * K + 1)) by lia; now apply cfrac_pos].
    unfold g, rho, rat, Rdiv. rewrite Rinv_mult, Rinv_inv. do 3 f_equal. ring.
  - apply is_lim_comp_continuous; [exact G|]. apply continuity_pt_filterlim. apply derivable_continuous_pt. exists (/ 2). apply derivable_pt_lim_ln. lra.
Qed.
