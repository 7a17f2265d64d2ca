(** * Polylogarithms and the energy of perfectly reflecting plates *)
From Coq Require Import Reals.
From Coquelicot Require Import Coquelicot.
From Coq Require Import Lia Lra Psatz.
From Verif Require Import Base Scat_Model PFA_Model Plate_Spec Zeta_Proofs.
Open Scope R_scope.

Lemma inv_pow_abs s n : 0 <= inv_pow s n <= 1.
Proof. split; [left; apply inv_pow_pos|]. apply Rle_trans with (inv_pow 0 n); [apply inv_pow_less; lia|]. unfold inv_pow. cbn [pow]. lra. Qed.
Lemma radius (a : nat -> R) z : (forall n, 0 <= a n <= 1) -> 0 <= z < 1 -> Rbar_lt (Rabs z) (CV_radius a).
Proof.
  intros Ha [Hz H1]. rewrite Rabs_pos_eq by assumption. apply Rbar_lt_le_trans with 1; [exact H1|]. apply (proj1 (CV_radius_bounded a)). exists 1. intros n. rewrite pow1, Rmult_1_r, Rabs_pos_eq; apply Ha.
Qed.
Definition Li (s : nat) (z : R) : R := PSeries (PS_incr_1 (inv_pow s)) z.
Lemma incr_abs s n : 0 <= PS_incr_1 (inv_pow s) n <= 1.
Proof. destruct n as [|n]; [cbn; unfold zero; cbn; lra|apply inv_pow_abs]. Qed.
Lemma Li_derive s z : 0 < z < 1 -> is_derive (Li (S s)) z (Li s z / z).
Proof.
  intros [H0 H1]. unfold Li. replace (PSeries (PS_incr_1 (inv_pow s)) z / z) with (PSeries (PS_derive (PS_incr_1 (inv_pow (S s)))) z).
  - apply is_derive_PSeries, radius; [apply incr_abs|lra].
  - rewrite PSeries_incr_1. replace (z * PSeries (inv_pow s) z / z) with (PSeries (inv_pow s) z) by (field; lra). apply PSeries_ext. intros n. unfold PS_derive. cbn [PS_incr_1]. unfold inv_pow. cbn [pow].
    assert (0 < INR (S n)) by (apply lt_0_INR; lia). assert (0 < INR (S n) ^ s) by now apply pow_lt. field. lra.
Qed.
Lemma Li0 z : 0 <= z < 1 -> Li 0 z = z / (1 - z).
Proof.
  intros H. unfold Li. rewrite PSeries_incr_1. unfold Rdiv. f_equal. unfold PSeries. rewrite (Series_ext _ (fun n => z ^ n)) by (intros n; unfold inv_pow; cbn [pow]; lra).
  apply Series_geom. rewrite Rabs_pos_eq; lra.
Qed.
Lemma Li1 z : 0 < z < 1 -> Li 1 z = - ln (1 - z).
Proof.
  intros [H0 H1]. assert (D : forall t, 0 <= t <= z -> is_derive (fun t => Li 1 t + ln (1 - t)) t 0).
  { intros t Ht. assert (DL : is_derive (Li 1) t (/ (1 - t))).
    { unfold Li. replace (/ (1 - t)) with (PSeries (PS_derive (PS_incr_1 (inv_pow 1))) t); [apply is_derive_PSeries, radius; [apply incr_abs|lra]|].
      unfold PSeries. rewrite (Series_ext _ (fun n => t ^ n)); [apply Series_geom; rewrite Rabs_pos_eq; lra|]. intros n. unfold PS_derive. cbn [PS_incr_1]. unfold inv_pow. rewrite pow_1. field. apply not_0_INR. lia. }
    replace 0 with (/ (1 - t) + - / (1 - t)) by ring. apply (is_derive_plus (V := R_NormedModule) (Li 1) (fun t => ln (1 - t))); [exact DL|]. auto_derive; [lra|field; lra]. }
  destruct (MVT_gen (fun t => Li 1 t + ln (1 - t)) 0 z (fun _ => 0)) as [c [_ E]].
  - rewrite Rmin_left, Rmax_right by lra. intros t Ht. apply D. lra.
  - rewrite Rmin_left, Rmax_right by lra. intros t Ht. apply continuity_pt_filterlim. apply (ex_derive_continuous (fun t => Li 1 t + ln (1 - t))). exists 0. now apply D.
  - replace (ln (1 - 0)) with 0 in E by (rewrite Rminus_0_r; symmetry; apply ln_1). replace (Li 1 0) with 0 in E by (unfold Li; rewrite PSeries_incr_1; ring). lra.
Qed.
Lemma Li_series s z : 0 <= z < 1 -> is_series (fun n => inv_pow s n * z ^ S n) (Li s z).
Proof.
  intros H. unfold Li. rewrite PSeries_incr_1. assert (X : ex_series (fun n => inv_pow s n * z ^ n)).
  { apply ex_series_Rabs. apply CV_disk_inside. apply radius; [apply inv_pow_abs|assumption]. }
  apply Series_correct in X. apply (is_series_scal_l z) in X. unfold PSeries. revert X. apply is_series_ext. intros n. cbn [pow]. unfold scal; cbn; unfold mult; cbn. ring.
Qed.

(** ** the two functions of the specification *)
Section Mirror.
Context (L : R) (HL : 0 < L).
Let z (k : R) : R := exp (- (2 * L * k)).
Lemma z_range k : 0 < k -> 0 < z k < 1.
Proof. intros H. unfold z. split; [apply exp_pos|]. rewrite <- exp_0. apply exp_increasing. nra. Qed.
Lemma z_pow k n : exp (- (2 * INR (S n) * L * k)) = z k ^ S n.
Proof. unfold z. rewrite <- (Rpower_pow _ _ (exp_pos _)). unfold Rpower. rewrite ln_exp. f_equal. ring. Qed.
Lemma term_Li k : 0 < k -> mirror_term L k = k / (2 * L) * Li 2 (z k) + / (4 * L ^ 2) * Li 3 (z k).
Proof.
  intros Hk. destruct (z_range k Hk). assert (A := Li_series 2 (z k) ltac:(lra)). assert (B := Li_series 3 (z k) ltac:(lra)). apply (is_series_scal_l (k / (2 * L))) in A. apply (is_series_scal_l (/ (4 * L ^ 2))) in B.
  assert (X := is_series_plus _ _ _ _ A B). unfold mirror_term. apply is_series_unique. revert X. apply is_series_ext. intros n. cbv zeta. rewrite z_pow. unfold plus, scal; cbn -[pow INR]; unfold mult; cbn -[pow INR]. unfold inv_pow. assert (0 < INR (S n)) by (apply lt_0_INR; lia). field. lra.
Qed.
Lemma tail_Li k : 0 < k -> mirror_tail L k = k / (4 * L ^ 2) * Li 3 (z k) + / (4 * L ^ 3) * Li 4 (z k).
Proof.
  intros Hk. destruct (z_range k Hk). assert (A := Li_series 3 (z k) ltac:(lra)). assert (B := Li_series 4 (z k) ltac:(lra)). apply (is_series_scal_l (k / (4 * L ^ 2))) in A. apply (is_series_scal_l (/ (4 * L ^ 3))) in B.
  assert (X := is_series_plus _ _ _ _ A B). unfold mirror_tail. apply is_series_unique. revert X. apply is_series_ext. intros n. cbv zeta. rewrite z_pow. unfold plus, scal; cbn -[pow INR]; unfold mult; cbn -[pow INR]. unfold inv_pow. assert (0 < INR (S n)) by (apply lt_0_INR; lia). field. lra.
Qed.
Lemma near k : 0 < k -> locally k (fun x => 0 < x).
Proof. intros H. exists (mkposreal k H). intros y Hy. unfold ball in Hy; cbn in Hy. unfold AbsRing_ball, minus, plus, opp, abs in Hy; cbn in Hy. apply Rabs_def2 in Hy. lra. Qed.
Lemma Li_comp s k : 0 < k -> is_derive (fun k => Li (S s) (z k)) k (- (2 * L) * Li s (z k)).
Proof.
  intros Hk. destruct (z_range k Hk) as [Z0 Z1]. replace (- (2 * L) * Li s (z k)) with (scal (- (2 * L) * z k) (Li s (z k) / z k)) by (unfold scal; cbn; unfold mult; cbn; field; lra).
  apply (is_derive_comp (V := R_NormedModule) (Li (S s)) z); [apply Li_derive; lra|]. unfold z. auto_derive; [trivial|ring].
Qed.
Lemma term_derive k : 0 < k -> is_derive (mirror_term L) k (k * ln (1 - exp (- (2 * L * k)))).
Proof.
  intros Hk. apply (is_derive_ext_loc (fun k => k / (2 * L) * Li 2 (z k) + / (4 * L ^ 2) * Li 3 (z k))); [generalize (near k Hk); apply filter_imp; intros y Hy; symmetry; now apply term_Li|].
  assert (D2 := Li_comp 1 k Hk). assert (D3 := Li_comp 2 k Hk). fold (z k). rewrite <- (Ropp_involutive (ln (1 - z k))), <- Li1 by now apply z_range.
  replace (k * - Li 1 (z k)) with ((/ (2 * L) * Li 2 (z k) + k / (2 * L) * (- (2 * L) * Li 1 (z k))) + / (4 * L ^ 2) * (- (2 * L) * Li 2 (z k))) by (field; lra).
  apply (is_derive_plus (V := R_NormedModule) (fun k => k / (2 * L) * Li 2 (z k)) (fun k => / (4 * L ^ 2) * Li 3 (z k))).
  - apply (is_derive_mult (fun k => k / (2 * L)) (fun k => Li 2 (z k))); [auto_derive; [trivial|field; lra]|exact D2|intros; apply Rmult_comm].
  - now apply (is_derive_scal (fun k => Li 3 (z k))).
Qed.
Lemma tail_derive k : 0 < k -> is_derive (mirror_tail L) k (- mirror_term L k).
Proof.
  intros Hk. apply (is_derive_ext_loc (fun k => k / (4 * L ^ 2) * Li 3 (z k) + / (4 * L ^ 3) * Li 4 (z k))); [generalize (near k Hk); apply filter_imp; intros y Hy; symmetry; now apply tail_Li|].
  assert (D3 := Li_comp 2 k Hk). assert (D4 := Li_comp 3 k Hk). rewrite term_Li by assumption.
  replace (- (k / (2 * L) * Li 2 (z k) + / (4 * L ^ 2) * Li 3 (z k))) with ((/ (4 * L ^ 2) * Li 3 (z k) + k / (4 * L ^ 2) * (- (2 * L) * Li 2 (z k))) + / (4 * L ^ 3) * (- (2 * L) * Li 3 (z k))) by (field; lra).
  apply (is_derive_plus (V := R_NormedModule) (fun k => k / (4 * L ^ 2) * Li 3 (z k)) (fun k => / (4 * L ^ 3) * Li 4 (z k))).
  - apply (is_derive_mult (fun k => k / (4 * L ^ 2)) (fun k => Li 3 (z k))); [auto_derive; [trivial|field; lra]|exact D3|intros; apply Rmult_comm].
  - now apply (is_derive_scal (fun k => Li 4 (z k))).
Qed.

(** ** bounds, term by term *)
Lemma exp_low y : 1 + y <= exp y.
Proof. destruct (Req_dec y 0) as [->|H]; [rewrite exp_0; lra|]. left. now apply exp_ineq1. Qed.
Lemma gamma_bounds y : 0 <= y -> 0 <= 1 - (1 + y) * exp (- y) <= y /\ 0 <= 1 - (1 + y / 2) * exp (- y) <= y.
Proof.
  intros H. assert (A := exp_low y). assert (B := exp_low (- y)). assert (P := exp_pos (- y)). assert (E : exp y * exp (- y) = 1) by (rewrite <- exp_plus, Rplus_opp_r; apply exp_0). repeat split; try nra.
  all: try (destruct (Rle_dec 1 y); nra).
Qed.
Lemma gamma_decay y : 0 < y -> (1 + y) * exp (- y) <= 4 / y.
Proof.
  intros H. assert (A := exp_low (y / 2)). assert (P := exp_pos (- y)). assert (E : exp (y / 2) * exp (y / 2) * exp (- y) = 1) by (rewrite <- !exp_plus; replace (y / 2 + y / 2 + - y) with 0 by field; apply exp_0).
  assert (Q : (1 + y / 2) * (1 + y / 2) <= exp (y / 2) * exp (y / 2)) by (apply Rmult_le_compat; lra). apply Rmult_le_reg_r with y; [assumption|]. replace (4 / y * y) with 4 by (field; lra). nra.
Qed.
Lemma term_shape i k : let n := INR (S i) in (k / (2 * n ^ 2 * L) + / (4 * n ^ 3 * L ^ 2)) * exp (- (2 * n * L * k)) = / (4 * L ^ 2) * (inv_pow 3 i * ((1 + 2 * n * L * k) * exp (- (2 * n * L * k)))).
Proof. cbv zeta. unfold inv_pow. assert (0 < INR (S i)) by (apply lt_0_INR; lia). field. lra. Qed.
Lemma tail_shape i k : let n := INR (S i) in (k / (4 * n ^ 3 * L ^ 2) + / (4 * n ^ 4 * L ^ 3)) * exp (- (2 * n * L * k)) = / (4 * L ^ 3) * (inv_pow 4 i * ((1 + 2 * n * L * k / 2) * exp (- (2 * n * L * k)))).
Proof. cbv zeta. unfold inv_pow. assert (0 < INR (S i)) by (apply lt_0_INR; lia). field. lra. Qed.
Lemma arg_nonneg i k : 0 <= k -> 0 <= 2 * INR (S i) * L * k.
Proof. intros H. assert (0 < INR (S i)) by (apply lt_0_INR; lia). apply Rmult_le_pos; [apply Rmult_le_pos; [lra|lra]|assumption]. Qed.
Definition g3 (k : R) (i : nat) : R := inv_pow 3 i * ((1 + 2 * INR (S i) * L * k) * exp (- (2 * INR (S i) * L * k))).
Definition g4 (k : R) (i : nat) : R := inv_pow 4 i * ((1 + 2 * INR (S i) * L * k / 2) * exp (- (2 * INR (S i) * L * k))).
Lemma g3_bounds k i : 0 <= k -> 0 <= g3 k i <= inv_pow 3 i /\ inv_pow 3 i - g3 k i <= 2 * L * k * inv_pow 2 i.
Proof.
  intros Hk. assert (Y := arg_nonneg i k Hk). set (y := 2 * INR (S i) * L * k) in *. destruct (gamma_bounds y Y) as [G _]. assert (P := inv_pow_pos 3 i). assert (E := exp_pos (- y)). unfold g3. fold y.
  assert (0 <= (1 + y) * exp (- y)) by (apply Rmult_le_pos; lra). split; [split; [apply Rmult_le_pos; lra|]|].
  - rewrite <- (Rmult_1_r (inv_pow 3 i)) at 2. apply Rmult_le_compat_l; lra.
  - apply Rle_trans with (inv_pow 3 i * y); [nra|]. right. unfold y, inv_pow. assert (0 < INR (S i)) by (apply lt_0_INR; lia). field. lra.
Qed.
Lemma g4_bounds k i : 0 <= k -> 0 <= g4 k i <= inv_pow 4 i /\ inv_pow 4 i - g4 k i <= 2 * L * k * inv_pow 3 i.
Proof.
  intros Hk. assert (Y := arg_nonneg i k Hk). set (y := 2 * INR (S i) * L * k) in *. destruct (gamma_bounds y Y) as [_ G]. assert (P := inv_pow_pos 4 i). assert (E := exp_pos (- y)). unfold g4. fold y.
  assert (0 <= (1 + y / 2) * exp (- y)) by (apply Rmult_le_pos; lra). split; [split; [apply Rmult_le_pos; lra|]|].
  - rewrite <- (Rmult_1_r (inv_pow 4 i)) at 2. apply Rmult_le_compat_l; lra.
  - apply Rle_trans with (inv_pow 4 i * y); [nra|]. right. unfold y, inv_pow. assert (0 < INR (S i)) by (apply lt_0_INR; lia). field. lra.
Qed.
Lemma g_decay k i : 0 < k -> g3 k i <= 2 / (L * k) * inv_pow 2 i /\ g4 k i <= 2 / (L * k) * inv_pow 2 i.
Proof.
  intros Hk. assert (N : 1 <= INR (S i)) by (rewrite S_INR; pose proof (pos_INR i); lra). assert (LK : 0 < L * k) by now apply Rmult_lt_0_compat. assert (Y : 0 < 2 * INR (S i) * L * k) by nra. set (y := 2 * INR (S i) * L * k) in *.
  assert (G := gamma_decay y Y). assert (E := exp_pos (- y)). assert (X : 4 / y <= 2 / (L * k)).
  { unfold y. apply Rmult_le_reg_r with (INR (S i) * (L * k)); [nra|]. replace (4 / (2 * INR (S i) * L * k) * (INR (S i) * (L * k))) with 2 by (field; nra). replace (2 / (L * k) * (INR (S i) * (L * k))) with (2 * INR (S i)) by (field; lra). lra. }
  assert (I3 := inv_pow_less 2 3 i ltac:(lia)). assert (I4 := inv_pow_less 2 4 i ltac:(lia)). assert (P3 := inv_pow_pos 3 i). assert (P4 := inv_pow_pos 4 i).
  assert (D : 0 < 2 / (L * k)) by (apply Rdiv_lt_0_compat; lra). unfold g3, g4. fold y. split.
  - rewrite (Rmult_comm (2 / (L * k))). apply Rmult_le_compat; try lra. nra.
  - rewrite (Rmult_comm (2 / (L * k))). apply Rmult_le_compat; try lra; nra.
Qed.
Lemma series_dom (a b : nat -> R) : (forall n, 0 <= a n <= b n) -> ex_series b -> ex_series a.
Proof. intros H. apply (ex_series_le (K := R_AbsRing) (V := R_CompleteNormedModule)). intros n. unfold norm; cbn; unfold abs; cbn. rewrite Rabs_pos_eq; apply H. Qed.
Lemma g3_ex k : 0 <= k -> ex_series (g3 k).
Proof. intros H. apply series_dom with (inv_pow 3); [intros n; now apply g3_bounds|apply zeta_ex; lia]. Qed.
Lemma g4_ex k : 0 <= k -> ex_series (g4 k).
Proof. intros H. apply series_dom with (inv_pow 4); [intros n; now apply g4_bounds|apply zeta_ex; lia]. Qed.
Lemma term_g k : mirror_term L k = / (4 * L ^ 2) * Series (g3 k).
Proof. unfold mirror_term. rewrite <- Series_scal_l. apply Series_ext. intros n. apply (term_shape n k). Qed.
Lemma tail_g k : mirror_tail L k = / (4 * L ^ 3) * Series (g4 k).
Proof. unfold mirror_tail. rewrite <- Series_scal_l. apply Series_ext. intros n. apply (tail_shape n k). Qed.
Lemma g_zero i : g3 0 i = inv_pow 3 i /\ g4 0 i = inv_pow 4 i.
Proof. unfold g3, g4. rewrite !Rmult_0_r, Ropp_0, exp_0. split; field. Qed.
Lemma term_zero : mirror_term L 0 = zeta3 / (4 * L ^ 2).
Proof. rewrite term_g, (Series_ext _ (inv_pow 3)) by (intros i; apply g_zero). unfold zeta3, inv_pow. field. lra. Qed.
Lemma tail_zero : mirror_tail L 0 = PI ^ 4 / (360 * L ^ 3).
Proof. rewrite tail_g, (Series_ext _ (inv_pow 4)) by (intros i; apply g_zero). rewrite (is_series_unique _ _ zeta4). field. lra. Qed.
Lemma series_nonneg (a : nat -> R) : (forall n, 0 <= a n) -> ex_series a -> 0 <= Series a.
Proof.
  intros H Ha. apply Rle_trans with (Series (fun _ : nat => 0)); [right; rewrite (Series_ext (fun _ => 0) (fun n => 0 * a n)) by (intros; ring); rewrite Series_scal_l; ring|].
  apply Series_le; [intros n; split; [lra|apply H]|assumption].
Qed.
Lemma series_diff (a b c : nat -> R) K : (forall n, 0 <= a n <= b n /\ b n - a n <= K * c n) -> ex_series b -> ex_series c -> Series c <= 2 -> 0 <= K -> 0 <= Series a <= Series b /\ Series b - Series a <= 2 * K.
Proof.
  intros H Hb Hc H2 HK. assert (Ha : ex_series a) by (apply series_dom with b; [intros n; apply H|assumption]). split; [split|].
  - apply series_nonneg; [intros n; apply H|assumption].
  - apply Series_le; [intros n; apply H|assumption].
  - rewrite <- Series_minus by assumption. apply Rle_trans with (Series (fun n => K * c n)); [|rewrite Series_scal_l; nra].
    apply Series_le; [intros n; specialize (H n); lra|]. now apply (ex_series_scal_l K c).
Qed.
Lemma term_bounds k : 0 <= k -> 0 <= mirror_term L k <= zeta3 / (4 * L ^ 2) /\ zeta3 / (4 * L ^ 2) - mirror_term L k <= k / L.
Proof.
  intros Hk. rewrite term_g. destruct (series_diff (g3 k) (inv_pow 3) (inv_pow 2) (2 * L * k)) as [[A B] D]; [intros n; now apply g3_bounds|apply zeta_ex; lia|apply zeta_ex; lia|apply zeta_ex; lia|nra|].
  change (Series (inv_pow 3)) with zeta3 in *. assert (P : 0 < / (4 * L ^ 2)) by (apply Rinv_0_lt_compat; nra). unfold Rdiv at 1 2. rewrite (Rmult_comm zeta3). repeat split.
  - apply Rmult_le_pos; lra.
  - apply Rmult_le_compat_l; lra.
  - rewrite <- Rmult_minus_distr_l. apply Rle_trans with (/ (4 * L ^ 2) * (2 * (2 * L * k))); [apply Rmult_le_compat_l; lra|]. right. field. lra.
Qed.
Lemma tail_bounds k : 0 <= k -> 0 <= mirror_tail L k <= PI ^ 4 / (360 * L ^ 3) /\ PI ^ 4 / (360 * L ^ 3) - mirror_tail L k <= k / L ^ 2.
Proof.
  intros Hk. rewrite <- tail_zero, !tail_g. assert (P3 : 0 < L ^ 3) by now apply pow_lt. rewrite (Series_ext (g4 0) (inv_pow 4)) by (intros i; apply g_zero). destruct (series_diff (g4 k) (inv_pow 4) (inv_pow 3) (2 * L * k)) as [[A B] D]; [intros n; now apply g4_bounds|apply zeta_ex; lia|apply zeta_ex; lia|apply zeta_ex; lia|nra|].
  assert (P : 0 < / (4 * L ^ 3)) by (apply Rinv_0_lt_compat; lra). repeat split.
  - apply Rmult_le_pos; lra.
  - apply Rmult_le_compat_l; lra.
  - rewrite <- Rmult_minus_distr_l. apply Rle_trans with (/ (4 * L ^ 3) * (2 * (2 * L * k))); [apply Rmult_le_compat_l; lra|]. right. field. lra.
Qed.
Lemma decay (c : R) (g : nat -> R) k : 0 < k -> 0 < c -> (forall i, 0 <= g i <= 2 / (L * k) * inv_pow 2 i) -> 0 <= c * Series g <= 4 * c / L * / k.
Proof.
  intros Hk Hc H. assert (LK : 0 < L * k) by now apply Rmult_lt_0_compat. assert (D : 0 < 2 / (L * k)) by (apply Rdiv_lt_0_compat; lra). destruct (zeta_ex 2 ltac:(lia)) as [E [_ Z]].
  assert (E' : ex_series (fun i => 2 / (L * k) * inv_pow 2 i)) by now apply (ex_series_scal_l (2 / (L * k)) (inv_pow 2)).
  assert (G : ex_series g) by (now apply series_dom with (fun i => 2 / (L * k) * inv_pow 2 i)).
  assert (A : 0 <= Series g) by (apply series_nonneg; [intros i; apply H|assumption]).
  assert (B : Series g <= 2 / (L * k) * 2). { apply Rle_trans with (Series (fun i => 2 / (L * k) * inv_pow 2 i)); [now apply Series_le|]. rewrite Series_scal_l. apply Rmult_le_compat_l; lra. }
  split; [apply Rmult_le_pos; lra|]. apply Rle_trans with (c * (2 / (L * k) * 2)); [apply Rmult_le_compat_l; lra|]. right. field. lra.
Qed.
Lemma to_zero (f : R -> R) c : (forall k, 0 < k -> 0 <= f k <= c * / k) -> filterlim f (Rbar_locally p_infty) (locally 0).
Proof.
  intros H. change (is_lim f p_infty 0). apply (is_lim_le_le_loc (fun _ => 0) (fun k => c * / k)).
  - exists 0. intros x Hx. now apply H.
  - apply is_lim_const.
  - replace (Finite 0) with (Rbar_mult c (Finite 0)) by (cbn; f_equal; ring). apply (is_lim_scal_l (fun k => / k) c p_infty 0). apply (is_lim_inv (fun k => k) p_infty p_infty); [apply is_lim_id|discriminate].
Qed.
Lemma term_vanishes : filterlim (mirror_term L) (Rbar_locally p_infty) (locally 0).
Proof.
  assert (P : 0 < / (4 * L ^ 2)) by (apply Rinv_0_lt_compat; nra). apply (to_zero _ (4 * / (4 * L ^ 2) / L)). intros k Hk. rewrite term_g. apply decay; [assumption|assumption|]. intros i. split; [apply g3_bounds; lra|now apply g_decay].
Qed.
Lemma tail_vanishes : filterlim (mirror_tail L) (Rbar_locally p_infty) (locally 0).
Proof.
  assert (P3 : 0 < L ^ 3) by now apply pow_lt. assert (P : 0 < / (4 * L ^ 3)) by (apply Rinv_0_lt_compat; lra). apply (to_zero _ (4 * / (4 * L ^ 3) / L)). intros k Hk. rewrite tail_g. apply decay; [assumption|assumption|]. intros i. split; [apply g4_bounds; lra|now apply g_decay].
Qed.

(** ** the integrals *)
Lemma improper (F g : R -> R) a : (forall x, a <= x -> is_derive F x (g x)) -> (forall x, a <= x -> continuous g x) -> filterlim F (Rbar_locally p_infty) (locally 0) -> is_RInt_gen g (at_point a) (Rbar_locally p_infty) (- F a).
Proof.
  intros D C Lm P HP. assert (Q : Rbar_locally p_infty (fun b => P (F b - F a))).
  { assert (M : filterlim (fun b => F b - F a) (Rbar_locally p_infty) (locally (- F a))).
    { replace (- F a) with (0 - F a) by ring. apply (filterlim_comp_2 (G := locally 0) (H := locally (- F a)) F (fun _ => - F a) Rplus); [exact Lm|apply filterlim_const|]. apply (filterlim_plus (V := R_NormedModule) 0 (- F a)). }
    exact (M P HP). }
  assert (G : Rbar_locally p_infty (fun b => a < b)) by (now exists a).
  exists (fun x => x = a) (fun b => a < b /\ P (F b - F a)); [reflexivity|now apply filter_and|].
  intros x b -> [Hb HPb]. exists (F b - F a). split; [|exact HPb]. cbn. apply (is_RInt_derive (V := R_CompleteNormedModule) F g); rewrite Rmin_left, Rmax_right by lra; intros; [apply D|apply C]; lra.
Qed.
Lemma root_derive c q : 0 < c -> is_derive (fun q => sqrt (q ^ 2 + c)) q (q / sqrt (q ^ 2 + c)).
Proof. intros H. assert (0 < q ^ 2 + c) by (pose proof (pow2_ge_0 q); lra). auto_derive; [lra|]. replace (q * (q * 1)) with (q ^ 2) by ring. field. apply Rgt_not_eq, sqrt_lt_R0. lra. Qed.
Lemma log_continuous c x : 0 < c -> continuous (fun q => q * ln (1 - exp (- (2 * L * sqrt (q ^ 2 + c))))) x.
Proof.
  intros H. assert (P : 0 < x ^ 2 + c) by (pose proof (pow2_ge_0 x); lra). assert (S : 0 < sqrt (x ^ 2 + c)) by now apply sqrt_lt_R0. apply (ex_derive_continuous (fun q => q * ln (1 - exp (- (2 * L * sqrt (q ^ 2 + c)))))). auto_derive.
  replace (x * (x * 1)) with (x ^ 2) by ring. repeat split; try lra. destruct (z_range _ S) as [_ Z]. unfold z in Z. lra.
Qed.
Lemma root_infinity c : 0 < c -> filterlim (fun q => sqrt (q ^ 2 + c)) (Rbar_locally p_infty) (Rbar_locally p_infty).
Proof.
  intros H P [M HM]. exists (Rmax M 0). intros x Hx. apply HM. assert (0 < x) by (pose proof (Rmax_r M 0); lra). apply Rlt_le_trans with x; [pose proof (Rmax_l M 0); lra|]. rewrite <- (sqrt_pow2 x) at 1 by lra. apply sqrt_le_1_alt. lra.
Qed.
Lemma frequency_integral k : 0 < k -> is_RInt_gen (fun q => q * ln (1 - exp (- (2 * L * sqrt (q ^ 2 + k ^ 2))))) (at_point 0) (Rbar_locally p_infty) (- mirror_term L k).
Proof.
  intros Hk. assert (K2 : 0 < k ^ 2) by now apply pow_lt. replace (mirror_term L k) with (mirror_term L (sqrt (0 ^ 2 + k ^ 2))) by (f_equal; rewrite pow_i, Rplus_0_l by lia; apply sqrt_pow2; lra).
  apply (improper (fun q => mirror_term L (sqrt (q ^ 2 + k ^ 2)))).
  - intros q _. assert (P : 0 < q ^ 2 + k ^ 2) by (pose proof (pow2_ge_0 q); lra). assert (S : 0 < sqrt (q ^ 2 + k ^ 2)) by now apply sqrt_lt_R0. set (s := sqrt (q ^ 2 + k ^ 2)) in *.
    replace (q * ln (1 - exp (- (2 * L * s)))) with (scal (q / s) (s * ln (1 - exp (- (2 * L * s))))) by (unfold scal; cbn; unfold mult; cbn; field; lra).
    apply (is_derive_comp (V := R_NormedModule) (mirror_term L) (fun q => sqrt (q ^ 2 + k ^ 2))); [now apply term_derive|]. now apply root_derive.
  - intros q _. now apply log_continuous.
  - apply filterlim_comp with (Rbar_locally p_infty); [now apply root_infinity|exact term_vanishes].
Qed.
Lemma energy_integral k : 0 < k -> is_RInt_gen (fun x => - mirror_term L x) (at_point k) (Rbar_locally p_infty) (- mirror_tail L k).
Proof.
  intros Hk. apply improper.
  - intros x Hx. apply tail_derive. lra.
  - intros x Hx. apply (continuous_opp (V := R_NormedModule)). apply (ex_derive_continuous (mirror_term L)). eexists. apply term_derive. lra.
  - exact tail_vanishes.
Qed.
End Mirror.
