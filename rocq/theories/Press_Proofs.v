(** * The pressure between perfectly reflecting plates *)
From Coq Require Import Reals.
From Coquelicot Require Import Coquelicot.
From Coq Require Import ZArith Lia Lra Psatz.
From Verif Require Import Base Scat_Model PFA_Model PFA_Proofs3 Plate_Spec Zeta_Proofs Plate_Proofs Plate_Proofs2 Slab_Proofs Press_Spec.
Open Scope R_scope.

Lemma exp_taylor2 y : 0 <= y -> 1 + y + y ^ 2 / 2 <= exp y.
Proof. intros H. apply Rle_trans with (2 := exp_ge_taylor y 2 H). cbn [sum_f_R0 pow]. simpl fact. cbn [INR]. lra. Qed.
Lemma exp_taylor3 y : 0 <= y -> 1 + y + y ^ 2 / 2 + y ^ 3 / 6 <= exp y.
Proof. intros H. apply Rle_trans with (2 := exp_ge_taylor y 3 H). cbn [sum_f_R0 pow]. simpl fact. cbn [INR]. lra. Qed.
Definition w3 (y : R) : R := (1 + y + y ^ 2 / 2) * exp (- y).
Definition w4 (y : R) : R := (1 + 2 / 3 * y + y ^ 2 / 6) * exp (- y).
Lemma exp_inv y : exp y * exp (- y) = 1.
Proof. rewrite <- exp_plus, Rplus_opp_r. apply exp_0. Qed.
Lemma w_bounds y : 0 <= y -> (0 <= w3 y <= 1 /\ 1 - w3 y <= y) /\ (0 <= w4 y <= 1 /\ 1 - w4 y <= y).
Proof.
  intros H. destruct (gamma_bounds y H) as [G1 G2]. assert (E := exp_pos (- y)). assert (T := exp_taylor2 y H). assert (I := exp_inv y). assert (Y2 := pow2_ge_0 y).
  assert (Q3 : 0 <= 1 + y + y ^ 2 / 2) by lra. assert (Q4 : 0 <= 1 + 2 / 3 * y + y ^ 2 / 6) by lra. unfold w3, w4.
  assert (A : (1 + y + y ^ 2 / 2) * exp (- y) <= exp y * exp (- y)) by (apply Rmult_le_compat_r; lra). assert (B : (1 + 2 / 3 * y + y ^ 2 / 6) * exp (- y) <= (1 + y + y ^ 2 / 2) * exp (- y)) by (apply Rmult_le_compat_r; lra).
  assert (C : (1 + y) * exp (- y) <= (1 + y + y ^ 2 / 2) * exp (- y)) by (apply Rmult_le_compat_r; lra). assert (D : (1 + y / 2) * exp (- y) <= (1 + 2 / 3 * y + y ^ 2 / 6) * exp (- y)) by (apply Rmult_le_compat_r; lra).
  assert (0 <= (1 + y + y ^ 2 / 2) * exp (- y)) by (apply Rmult_le_pos; lra). assert (0 <= (1 + 2 / 3 * y + y ^ 2 / 6) * exp (- y)) by (apply Rmult_le_pos; lra). repeat split; lra.
Qed.
Lemma w_decay y : 0 < y -> w3 y <= 6 / y /\ w4 y <= 6 / y.
Proof.
  intros H. assert (E := exp_pos (- y)). assert (T := exp_taylor3 y (Rlt_le _ _ H)). assert (I := exp_inv y). assert (Y2 := pow2_ge_0 y). assert (A : w3 y <= 6 / y).
  { apply Rmult_le_reg_r with y; [assumption|]. replace (6 / y * y) with 6 by (field; lra). unfold w3. assert ((1 + y + y ^ 2 / 2) * y <= 6 * exp y) by (cbn [pow] in *; nra). assert ((1 + y + y ^ 2 / 2) * y * exp (- y) <= 6 * exp y * exp (- y)) by (apply Rmult_le_compat_r; lra). lra. }
  split; [exact A|]. apply Rle_trans with (2 := A). unfold w3, w4. apply Rmult_le_compat_r; lra.
Qed.
(** a family of series: the sum of w(2 n L k)/n^s *)
Section Family.
Context (L : R) (HL : 0 < L) (w : R -> R) (s : nat) (Hs : (3 <= s)%nat) (Hw : forall y, 0 <= y -> 0 <= w y <= 1 /\ 1 - w y <= y) (Hd : forall y, 0 < y -> w y <= 6 / y).
Definition fam (k : R) (i : nat) : R := inv_pow s i * w (2 * INR (S i) * L * k).
Lemma fam_bounds k i : 0 <= k -> 0 <= fam k i <= inv_pow s i /\ inv_pow s i - fam k i <= 2 * L * k * inv_pow (s - 1) i.
Proof.
  intros Hk. assert (Y := arg_nonneg L HL i k Hk). destruct (Hw _ Y) as [[W0 W1] W2]. unfold fam. set (y := 2 * INR (S i) * L * k) in *. assert (P := inv_pow_pos s i). split; [split; [apply Rmult_le_pos; lra|]|].
  - rewrite <- (Rmult_1_r (inv_pow s i)) at 2. apply Rmult_le_compat_l; lra.
  - apply Rle_trans with (inv_pow s i * y); [rewrite <- (Rmult_1_r (inv_pow s i)) at 1; rewrite <- Rmult_minus_distr_l; apply Rmult_le_compat_l; lra|]. right. unfold y, inv_pow. assert (0 < INR (S i)) by (apply lt_0_INR; lia). replace s with (S (s - 1)) at 1 by lia. cbn [pow]. assert (0 < INR (S i) ^ (s - 1)) by now apply pow_lt. field. lra.
Qed.
Lemma fam_ex k : 0 <= k -> ex_series (fam k).
Proof. intros H. apply series_dom with (inv_pow s); [intros n; now apply fam_bounds|apply zeta_ex; lia]. Qed.
Lemma fam_zero : Series (fam 0) = Series (inv_pow s).
Proof. apply Series_ext. intros i. unfold fam. rewrite Rmult_0_r. destruct (Hw 0 ltac:(lra)) as [[_ A] B]. replace (w 0) with 1 by lra. ring. Qed.
Lemma fam_diff k : 0 <= k -> 0 <= Series (fam k) <= Series (inv_pow s) /\ Series (inv_pow s) - Series (fam k) <= 2 * (2 * L * k).
Proof. intros Hk. apply (series_diff _ _ (inv_pow (s - 1))); [intros n; now apply fam_bounds|apply zeta_ex; lia|apply zeta_ex; lia|apply zeta_ex; lia|]. assert (0 <= L * k) by (apply Rmult_le_pos; lra). lra. Qed.
Lemma fam_vanishes c : 0 < c -> filterlim (fun k => c * Series (fam k)) (Rbar_locally p_infty) (locally 0).
Proof.
  intros Hc. apply (to_zero _ (4 * (2 * c) / L)). intros k Hk. assert (LK : 0 < L * k) by now apply Rmult_lt_0_compat. assert (D : 0 < 2 / (L * k)) by (apply Rdiv_lt_0_compat; lra).
  destruct (decay L HL (2 * c) (fun i => / 2 * fam k i) k Hk ltac:(lra)) as [A B]; [|rewrite Series_scal_l in A, B; lra].
  intros i. destruct (fam_bounds k i (Rlt_le _ _ Hk)) as [[F0 _] _]. split; [lra|]. unfold fam. assert (N : 1 <= INR (S i)) by (rewrite S_INR; pose proof (pos_INR i); lra). assert (Y : 0 < 2 * INR (S i) * L * k) by nra. assert (W := Hd _ Y).
  assert (X : 6 / (2 * INR (S i) * L * k) <= 4 / (L * k)). { apply Rmult_le_reg_r with (INR (S i) * (L * k)); [nra|]. replace (6 / (2 * INR (S i) * L * k) * (INR (S i) * (L * k))) with 3 by (field; nra). replace (4 / (L * k) * (INR (S i) * (L * k))) with (4 * INR (S i)) by (field; lra). lra. }
  assert (I2 := inv_pow_less 2 s i ltac:(lia)). assert (P := inv_pow_pos s i). assert (W0 : 0 <= w (2 * INR (S i) * L * k)) by (apply Hw; lra). set (y := w (2 * INR (S i) * L * k)) in *. set (z := 2 / (L * k)) in *. replace (4 / (L * k)) with (2 * z) in X by (unfold z; field; lra).
  assert (inv_pow s i * y <= inv_pow 2 i * (2 * z)) by (apply Rmult_le_compat; lra). lra.
Qed.
End Family.
Section Press.
Context (L : R) (HL : 0 < L).
Let z (k : R) : R := exp (- (2 * L * k)).
Lemma z_pow' k n : exp (- (2 * INR (S n) * L * k)) = z k ^ S n.
Proof. unfold z. rewrite <- (Rpower_pow _ _ (exp_pos _)). unfold Rpower. rewrite ln_exp. f_equal. ring. Qed.
Lemma press_term_fam k : press_term L k = / (4 * L ^ 3) * Series (fam L w3 3 k).
Proof. unfold press_term. rewrite <- Series_scal_l. apply Series_ext. intros i. cbv zeta. unfold fam, w3, inv_pow. assert (0 < INR (S i)) by (apply lt_0_INR; lia). field. lra. Qed.
Lemma press_tail_fam k : press_tail L k = 3 / (8 * L ^ 4) * Series (fam L w4 4 k).
Proof. unfold press_tail. rewrite <- Series_scal_l. apply Series_ext. intros i. cbv zeta. unfold fam, w4, inv_pow. assert (0 < INR (S i)) by (apply lt_0_INR; lia). field. lra. Qed.
Lemma combine (a b c d e f : R) (u v x t : nat -> R) (su sv sx : R) : is_series u su -> is_series v sv -> is_series x sx -> (forall n, t n = a * u n + b * v n + c * x n) -> Series t = a * su + b * sv + c * sx.
Proof.
  intros U V X H. apply (is_series_scal_l a) in U. apply (is_series_scal_l b) in V. apply (is_series_scal_l c) in X. assert (Y := is_series_plus _ _ _ _ (is_series_plus _ _ _ _ U V) X). apply is_series_unique. revert Y. apply is_series_ext. intros n. rewrite H. reflexivity.
Qed.
Lemma press_term_Li k : 0 < k -> press_term L k = k ^ 2 / (2 * L) * Li 1 (z k) + k / (2 * L ^ 2) * Li 2 (z k) + / (4 * L ^ 3) * Li 3 (z k).
Proof.
  intros Hk. destruct (z_range L HL k Hk) as [Z0 Z1]. fold (z k) in Z0, Z1. unfold press_term. apply (combine _ _ _ 0 0 0 _ _ _ _ _ _ _ (Li_series 1 (z k) ltac:(lra)) (Li_series 2 (z k) ltac:(lra)) (Li_series 3 (z k) ltac:(lra))).
  intros n. cbv zeta. rewrite z_pow'. unfold inv_pow. assert (0 < INR (S n)) by (apply lt_0_INR; lia). field. lra.
Qed.
Lemma press_tail_Li k : 0 < k -> press_tail L k = k ^ 2 / (4 * L ^ 2) * Li 2 (z k) + k / (2 * L ^ 3) * Li 3 (z k) + 3 / (8 * L ^ 4) * Li 4 (z k).
Proof.
  intros Hk. destruct (z_range L HL k Hk) as [Z0 Z1]. fold (z k) in Z0, Z1. unfold press_tail. apply (combine _ _ _ 0 0 0 _ _ _ _ _ _ _ (Li_series 2 (z k) ltac:(lra)) (Li_series 3 (z k) ltac:(lra)) (Li_series 4 (z k) ltac:(lra))).
  intros n. cbv zeta. rewrite z_pow'. unfold inv_pow. assert (0 < INR (S n)) by (apply lt_0_INR; lia). field. lra.
Qed.
Lemma prod_derive (f g : R -> R) x df dg : is_derive f x df -> is_derive g x dg -> is_derive (fun x => f x * g x) x (df * g x + f x * dg).
Proof. intros F G. apply (is_derive_mult f g); [exact F|exact G|intros; apply Rmult_comm]. Qed.
Lemma sum_derive (f g : R -> R) x df dg : is_derive f x df -> is_derive g x dg -> is_derive (fun x => f x + g x) x (df + dg).
Proof. intros F G. apply (is_derive_plus (V := R_NormedModule) f g); assumption. Qed.
Lemma press_term_derive k : 0 < k -> is_derive (press_term L) k (- (k ^ 2 * (exp (- (2 * L * k)) / (1 - exp (- (2 * L * k)))))).
Proof.
  intros Hk. apply (is_derive_ext_loc (fun k => k ^ 2 / (2 * L) * Li 1 (z k) + k / (2 * L ^ 2) * Li 2 (z k) + / (4 * L ^ 3) * Li 3 (z k))); [generalize (near k Hk); apply filter_imp; intros y Hy; symmetry; now apply press_term_Li|].
  assert (D1 := Li_comp L HL 0 k Hk). assert (D2 := Li_comp L HL 1 k Hk). assert (D3 := Li_comp L HL 2 k Hk). destruct (z_range L HL k Hk) as [Z0 Z1]. change (exp (- (2 * L * k))) with (z k) in Z0, Z1 |- *. rewrite <- Li0 by lra.
  replace (- (k ^ 2 * Li 0 (z k))) with ((k / L * Li 1 (z k) + k ^ 2 / (2 * L) * (- (2 * L) * Li 0 (z k))) + (/ (2 * L ^ 2) * Li 2 (z k) + k / (2 * L ^ 2) * (- (2 * L) * Li 1 (z k))) + / (4 * L ^ 3) * (- (2 * L) * Li 2 (z k))) by (field; lra).
  apply sum_derive; [apply sum_derive|].
  - apply (prod_derive (fun k => k ^ 2 / (2 * L)) (fun k => Li 1 (z k))); [auto_derive; [trivial|field; lra]|exact D1].
  - apply (prod_derive (fun k => k / (2 * L ^ 2)) (fun k => Li 2 (z k))); [auto_derive; [trivial|field; lra]|exact D2].
  - now apply (is_derive_scal (fun k => Li 3 (z k))).
Qed.
Lemma press_tail_derive k : 0 < k -> is_derive (press_tail L) k (- press_term L k).
Proof.
  intros Hk. apply (is_derive_ext_loc (fun k => k ^ 2 / (4 * L ^ 2) * Li 2 (z k) + k / (2 * L ^ 3) * Li 3 (z k) + 3 / (8 * L ^ 4) * Li 4 (z k))); [generalize (near k Hk); apply filter_imp; intros y Hy; symmetry; now apply press_tail_Li|].
  assert (D2 := Li_comp L HL 1 k Hk). assert (D3 := Li_comp L HL 2 k Hk). assert (D4 := Li_comp L HL 3 k Hk). rewrite press_term_Li by assumption.
  replace (- (k ^ 2 / (2 * L) * Li 1 (z k) + k / (2 * L ^ 2) * Li 2 (z k) + / (4 * L ^ 3) * Li 3 (z k))) with ((k / (2 * L ^ 2) * Li 2 (z k) + k ^ 2 / (4 * L ^ 2) * (- (2 * L) * Li 1 (z k))) + (/ (2 * L ^ 3) * Li 3 (z k) + k / (2 * L ^ 3) * (- (2 * L) * Li 2 (z k))) + 3 / (8 * L ^ 4) * (- (2 * L) * Li 3 (z k))) by (field; lra).
  apply sum_derive; [apply sum_derive|].
  - apply (prod_derive (fun k => k ^ 2 / (4 * L ^ 2)) (fun k => Li 2 (z k))); [auto_derive; [trivial|field; lra]|exact D2].
  - apply (prod_derive (fun k => k / (2 * L ^ 3)) (fun k => Li 3 (z k))); [auto_derive; [trivial|field; lra]|exact D3].
  - now apply (is_derive_scal (fun k => Li 4 (z k))).
Qed.
Lemma press_term_bounds k : 0 <= k -> 0 <= press_term L k <= zeta3 / (4 * L ^ 3) /\ zeta3 / (4 * L ^ 3) - press_term L k <= k / L ^ 2.
Proof.
  intros Hk. rewrite press_term_fam. assert (P3 : 0 < L ^ 3) by now apply pow_lt. assert (P : 0 < / (4 * L ^ 3)) by (apply Rinv_0_lt_compat; lra). destruct (fam_diff L HL w3 3 (le_n 3) (fun y H => proj1 (w_bounds y H)) k Hk) as [[A B] D]. change (Series (inv_pow 3)) with zeta3 in *. unfold Rdiv at 1 2. rewrite (Rmult_comm zeta3). repeat split.
  - apply Rmult_le_pos; lra.
  - apply Rmult_le_compat_l; lra.
  - rewrite <- Rmult_minus_distr_l. apply Rle_trans with (/ (4 * L ^ 3) * (2 * (2 * L * k))); [apply Rmult_le_compat_l; lra|]. right. field. lra.
Qed.
Lemma press_zero : press_term L 0 = zeta3 / (4 * L ^ 3) /\ press_tail L 0 = PI ^ 4 / (240 * L ^ 4).
Proof.
  rewrite press_term_fam, press_tail_fam. rewrite (fam_zero L w3 3 (fun y H => proj1 (w_bounds y H))), (fam_zero L w4 4 (fun y H => proj2 (w_bounds y H))). rewrite (is_series_unique _ _ zeta4). change (Series (inv_pow 3)) with zeta3. split; field; lra.
Qed.
Lemma press_tail_bounds k : 0 <= k -> 0 <= press_tail L k <= PI ^ 4 / (240 * L ^ 4) /\ PI ^ 4 / (240 * L ^ 4) - press_tail L k <= 3 / 2 * k / L ^ 3.
Proof.
  intros Hk. rewrite <- (proj2 press_zero), !press_tail_fam. rewrite (fam_zero L w4 4 (fun y H => proj2 (w_bounds y H))). assert (P3 : 0 < L ^ 4) by now apply pow_lt. assert (P : 0 < 3 / (8 * L ^ 4)) by (apply Rdiv_lt_0_compat; lra). destruct (fam_diff L HL w4 4 (le_S _ _ (le_n 3)) (fun y H => proj2 (w_bounds y H)) k Hk) as [[A B] D]. repeat split.
  - apply Rmult_le_pos; lra.
  - apply Rmult_le_compat_l; lra.
  - rewrite <- Rmult_minus_distr_l. apply Rle_trans with (3 / (8 * L ^ 4) * (2 * (2 * L * k))); [apply Rmult_le_compat_l; lra|]. right. field. lra.
Qed.
Lemma press_vanish : filterlim (press_term L) (Rbar_locally p_infty) (locally 0) /\ filterlim (press_tail L) (Rbar_locally p_infty) (locally 0).
Proof.
  assert (P3 : 0 < L ^ 3) by now apply pow_lt. assert (P4 : 0 < L ^ 4) by now apply pow_lt. split.
  - apply (filterlim_ext (fun k => / (4 * L ^ 3) * Series (fam L w3 3 k))); [intros k; symmetry; apply press_term_fam|]. apply (fam_vanishes L HL w3 3); [lia|apply w_bounds|apply w_decay|apply Rinv_0_lt_compat; lra].
  - apply (filterlim_ext (fun k => 3 / (8 * L ^ 4) * Series (fam L w4 4 k))); [intros k; symmetry; apply press_tail_fam|]. apply (fam_vanishes L HL w4 4); [lia|apply w_bounds|apply w_decay|apply Rdiv_lt_0_compat; lra].
Qed.
(** the integral over wave vectors *)
Lemma press_integral k : 0 < k -> integral (fun q => q * (- sqrt (q ^ 2 + k ^ 2) * exp (- (2 * L * sqrt (q ^ 2 + k ^ 2))) / (1 - exp (- (2 * L * sqrt (q ^ 2 + k ^ 2)))))) 0 (- press_term L k).
Proof.
  intros Hk. assert (K2 : 0 < k ^ 2) by now apply pow_lt. replace (press_term L k) with (press_term L (sqrt (0 ^ 2 + k ^ 2))) by (f_equal; rewrite pow_i, Rplus_0_l by lia; apply sqrt_pow2; lra).
  assert (PP : forall q, 0 < sqrt (q ^ 2 + k ^ 2)) by (intros q; apply sqrt_lt_R0; pose proof (pow2_ge_0 q); lra). apply (improper (fun q => press_term L (sqrt (q ^ 2 + k ^ 2)))).
  - intros q _. assert (P := PP q). set (s := sqrt (q ^ 2 + k ^ 2)) in *. destruct (z_range L HL s P) as [Z0 Z1]. replace (q * (- s * exp (- (2 * L * s)) / (1 - exp (- (2 * L * s))))) with (scal (q / s) (- (s ^ 2 * (exp (- (2 * L * s)) / (1 - exp (- (2 * L * s))))))) by (unfold scal; cbn -[pow]; unfold mult; cbn -[pow]; field; lra).
    apply (is_derive_comp (V := R_NormedModule) (press_term L) (fun q => sqrt (q ^ 2 + k ^ 2))); [now apply press_term_derive|]. now apply root_derive.
  - intros q _. assert (P := PP q). destruct (z_range L HL _ P) as [Z0 Z1]. assert (0 < q ^ 2 + k ^ 2) by (pose proof (pow2_ge_0 q); lra). apply (ex_derive_continuous (fun q => q * (- sqrt (q ^ 2 + k ^ 2) * exp (- (2 * L * sqrt (q ^ 2 + k ^ 2))) / (1 - exp (- (2 * L * sqrt (q ^ 2 + k ^ 2))))))). auto_derive. replace (q * (q * 1)) with (q ^ 2) by ring. replace (k * (k * 1)) with (k ^ 2) by ring. repeat split; lra.
  - apply filterlim_comp with (Rbar_locally p_infty); [now apply root_infinity|apply press_vanish].
Qed.
(** monotony and sums *)
Lemma R_less a b : 0 <= a <= b -> press_term L b <= press_term L a.
Proof.
  intros [Ha Hb]. destruct (Req_dec a 0) as [->|Na]; [rewrite (proj1 press_zero); now apply press_term_bounds|]. assert (A : 0 < a) by lra. destruct (MVT_gen (press_term L) a b (fun k => - (k ^ 2 * (exp (- (2 * L * k)) / (1 - exp (- (2 * L * k))))))) as [c [Hc E]].
  - rewrite Rmin_left, Rmax_right by lra. intros x Hx. apply press_term_derive; lra.
  - rewrite Rmin_left, Rmax_right by lra. intros x Hx. refine (derive_cont _ _ _ (press_term_derive x _)); lra.
  - rewrite Rmin_left, Rmax_right in Hc by lra. destruct (z_range L HL c ltac:(lra)) as [Z0 Z1]. assert (0 <= c ^ 2 * (exp (- (2 * L * c)) / (1 - exp (- (2 * L * c))))) by (apply Rmult_le_pos; [apply pow2_ge_0|apply Rdiv_le_0_compat; lra]). set (l := c ^ 2 * _) in *. assert (0 <= l * (b - a)) by (apply Rmult_le_pos; lra). lra.
Qed.
End Press.
(** sums over equidistant frequencies for a decreasing function and minus its integral *)
Section Riemann.
Context (P Q : R -> R) (C : R) (HC : 0 <= C) (P0 : forall k, 0 <= k -> 0 <= P k) (Pd : forall a b, 0 <= a <= b -> P b <= P a) (Qd : forall k, 0 < k -> is_derive Q k (- P k)) (Qc : forall k, 0 <= k -> Q k <= Q 0 <= Q k + C * k).
Lemma step_pos a b : 0 < a <= b -> (b - a) * P b <= Q a - Q b <= (b - a) * P a.
Proof.
  intros [Ha Hb]. destruct (MVT_gen Q a b (fun k => - P k)) as [c [Hc E]].
  - rewrite Rmin_left, Rmax_right by lra. intros x Hx. apply Qd; lra.
  - rewrite Rmin_left, Rmax_right by lra. intros x Hx. refine (derive_cont _ _ _ (Qd x _)); lra.
  - rewrite Rmin_left, Rmax_right in Hc by lra. assert (A := Pd a c ltac:(lra)). assert (B := Pd c b ltac:(lra)). assert ((b - a) * P b <= (b - a) * P c) by (apply Rmult_le_compat_l; lra). assert ((b - a) * P c <= (b - a) * P a) by (apply Rmult_le_compat_l; lra). lra.
Qed.
Lemma step a b : 0 <= a <= b -> (b - a) * P b <= Q a - Q b <= (b - a) * P a.
Proof.
  intros [Ha Hb]. destruct (Req_dec a 0) as [->|Na]; [|apply step_pos; lra]. destruct (Req_dec b 0) as [->|Nb]; [lra|]. assert (B : 0 < b) by lra. rewrite Rminus_0_r.
  assert (PB0 := P0 b ltac:(lra)). assert (PZ := P0 0 ltac:(lra)). assert (X : forall e, 0 < e < b -> (b - e) * P b <= Q 0 - Q b /\ Q 0 - Q b <= b * P 0 + C * e).
  { intros e He. assert (S := step_pos e b ltac:(lra)). assert (PE : P e <= P 0) by (apply Pd; lra). destruct (Qc e ltac:(lra)) as [T1 T2]. split; [lra|]. assert ((b - e) * P e <= b * P 0) by (apply Rmult_le_compat; try lra; apply P0; lra). lra. }
  split; apply Rnot_lt_le; intros Cn.
  - set (d := b * P b - (Q 0 - Q b)) in *. assert (D : 0 < d) by (unfold d; lra). set (e := Rmin (b / 2) (d / 2 / (P b + 1))). assert (E0 : 0 < e) by (apply Rmin_pos; [lra|apply Rdiv_lt_0_compat; lra]).
    destruct (X e) as [Y _]; [split; [assumption|apply Rle_lt_trans with (1 := Rmin_l _ _); lra]|]. assert (e * (P b + 1) <= d / 2). { apply Rle_trans with (d / 2 / (P b + 1) * (P b + 1)); [apply Rmult_le_compat_r; [lra|apply Rmin_r]|]. right. field. lra. } assert (e * P b <= d / 2) by nra. unfold d in *. lra.
  - set (d := Q 0 - Q b - b * P 0) in *. assert (D : 0 < d) by (unfold d; lra). set (e := Rmin (b / 2) (d / 2 / (C + 1))). assert (E0 : 0 < e) by (apply Rmin_pos; [lra|apply Rdiv_lt_0_compat; lra]).
    destruct (X e) as [_ Y]; [split; [assumption|apply Rle_lt_trans with (1 := Rmin_l _ _); lra]|]. assert (e * (C + 1) <= d / 2). { apply Rle_trans with (d / 2 / (C + 1) * (C + 1)); [apply Rmult_le_compat_r; [lra|apply Rmin_r]|]. right. field. lra. } assert (C * e <= d / 2) by nra. unfold d in *. lra.
Qed.
Lemma falling a b : 0 <= a <= b -> Q b <= Q a.
Proof. intros H. destruct (step a b H) as [X _]. assert (0 <= P b) by (apply P0; lra). assert (0 <= (b - a) * P b) by (apply Rmult_le_pos; lra). lra. Qed.
Lemma riemann_sum T n : 0 < T -> let s := sum_f_R0 (fun i => if Nat.eqb i 0 then 0 else P (INR i * T)) n in Q T - Q (INR (S n) * T) <= T * s <= Q 0 - Q (INR n * T).
Proof.
  intros HT. cbv zeta. induction n as [|n IH].
  - cbn [sum_f_R0 Nat.eqb INR]. rewrite Rmult_1_l, Rmult_0_l, Rmult_0_r. lra.
  - cbn [sum_f_R0 Nat.eqb]. assert (N : 0 <= INR n) by apply pos_INR. destruct (step (INR n * T) (INR (S n) * T)) as [A _]; [rewrite S_INR; nra|]. destruct (step (INR (S n) * T) (INR (S (S n)) * T)) as [_ B]; [rewrite (S_INR (S n)), S_INR; nra|].
    rewrite (S_INR (S n)) in *. rewrite (S_INR n) in *. rewrite Rmult_plus_distr_l. replace ((INR n + 1) * T - INR n * T) with T in A by ring. replace ((INR n + 1 + 1) * T - (INR n + 1) * T) with T in B by ring. lra.
Qed.
Lemma matsubara_near T w k0 c L : 0 < T -> 0 < L -> 0 < c -> 0 <= w <= / 2 -> 0 <= k0 -> (forall k, 0 <= k -> 0 <= Q k) ->
  Rabs (T * (w * P k0 + sum_f_R0 (fun i => if Nat.eqb i 0 then 0 else P (INR i * T)) (Z.to_nat (trunc (c / (T * L))))) - Q 0) <= T * P 0 + Q (c / L).
Proof.
  intros HT HL Hc Hw Hk Hq. set (n := Z.to_nat (trunc (c / (T * L)))). assert (R := riemann_sum T n HT). cbv zeta in R. set (s := sum_f_R0 _ n) in *. assert (D : 0 < c / (T * L)) by (apply Rdiv_lt_0_compat; [lra|now apply Rmult_lt_0_compat]).
  assert (N : c / L <= INR (S n) * T).
  { assert (G := trunc_gt _ (Rlt_le _ _ D)). assert (Z := trunc_nonneg _ (Rlt_le _ _ D)). assert (E : INR n = IZR (trunc (c / (T * L)))) by (unfold n; rewrite INR_IZR_INZ, Z2Nat.id by assumption; reflexivity). rewrite S_INR, E.
    replace (c / L) with (c / (T * L) * T) by (field; lra). apply Rmult_le_compat_r; lra. }
  assert (CL : 0 < c / L) by (apply Rdiv_lt_0_compat; lra). assert (F := falling _ _ (conj (Rlt_le _ _ CL) N)). assert (B := Hq (INR n * T) (Rmult_le_pos _ _ (pos_INR n) (Rlt_le _ _ HT))). destruct (step 0 T ltac:(lra)) as [_ S0]. rewrite Rminus_0_r in S0.
  assert (P1 := Pd 0 k0 ltac:(lra)). assert (P2 := P0 k0 Hk). assert (P3 := P0 0 ltac:(lra)). assert (W : 0 <= w * P k0 <= / 2 * P 0) by (split; [apply Rmult_le_pos; lra|apply Rmult_le_compat; lra]). assert (W2 : 0 <= T * (w * P k0) <= T * (/ 2 * P 0)) by (split; [apply Rmult_le_pos; lra|apply Rmult_le_compat_l; lra]).
  assert (TP : 0 <= T * P 0) by (apply Rmult_le_pos; lra). assert (E0 := Hq (c / L) (Rlt_le _ _ CL)). rewrite Rmult_plus_distr_l. apply Rabs_le. lra.
Qed.
End Riemann.
(** the derivative of the energy with respect to the distance *)
Lemma energy_distance k L : 0 < k -> 0 < L -> is_derive (fun L => mirror_term L k) L (-2 * press_term L k).
Proof.
  intros Hk HL. set (z := fun L => exp (- (2 * L * k))). apply (is_derive_ext_loc (fun L => k / (2 * L) * Li 2 (z L) + / (4 * L ^ 2) * Li 3 (z L))); [generalize (near L HL); apply filter_imp; intros y Hy; symmetry; apply (term_Li y Hy k Hk)|].
  assert (D : forall s, is_derive (fun L => Li (S s) (z L)) L (- (2 * k) * Li s (z L))).
  { intros s. destruct (z_range L HL k Hk) as [Z0 Z1]. change (exp (- (2 * L * k))) with (z L) in *. replace (- (2 * k) * Li s (z L)) with (scal (- (2 * k) * z L) (Li s (z L) / z L)) by (unfold scal; cbn; unfold mult; cbn; field; lra). apply (is_derive_comp (V := R_NormedModule) (Li (S s)) z); [apply Li_derive; lra|]. unfold z. auto_derive; [trivial|ring]. }
  rewrite (press_term_Li L HL k Hk). change (exp (- (2 * L * k))) with (z L).
  replace (-2 * (k ^ 2 / (2 * L) * Li 1 (z L) + k / (2 * L ^ 2) * Li 2 (z L) + / (4 * L ^ 3) * Li 3 (z L))) with ((- k / (2 * L ^ 2) * Li 2 (z L) + k / (2 * L) * (- (2 * k) * Li 1 (z L))) + (- / (2 * L ^ 3) * Li 3 (z L) + / (4 * L ^ 2) * (- (2 * k) * Li 2 (z L)))) by (field; lra).
  apply sum_derive.
  - apply (prod_derive (fun L => k / (2 * L)) (fun L => Li 2 (z L))); [auto_derive; [lra|field; lra]|apply (D 1%nat)].
  - apply (prod_derive (fun L => / (4 * L ^ 2)) (fun L => Li 3 (z L))); [auto_derive; [|field; lra]|apply (D 2%nat)]. assert (0 < L * L) by nra. cbn [pow]. rewrite Rmult_1_r. lra.
Qed.
