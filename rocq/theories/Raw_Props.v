(** * Property C92 (raw_PFA.py between perfect reflectors, with an exact quadrature) *)
From Coq Require Import Reals.
From Coquelicot Require Import Coquelicot.
From Coq Require Import Bool ZArith List Lia Lra Psatz.
From Verif Require Import Base Mat_Model Mat_Spec Scat_Model Scat_Spec Scat_Proofs Scat_Proofs2 Scat_Props PFA_Model PFA_Spec PFA_Proofs PFA_Proofs3 PFA_Props PFA_Props2 Plate_Spec Zeta_Proofs Plate_Proofs Plate_Proofs2 Plate_Props Slab_Proofs Press_Proofs Press_Props.
Import ListNotations.
Open Scope R_scope.

Lemma frequency_integral_from L a k : 0 < L -> 0 < k -> integral (fun q => q * ln (1 - exp (- (2 * L * sqrt (q ^ 2 + k ^ 2))))) a (- mirror_term L (sqrt (a ^ 2 + k ^ 2))).
Proof.
  intros HL Hk. assert (K2 : 0 < k ^ 2) by now apply pow_lt. apply (improper (fun q => mirror_term L (sqrt (q ^ 2 + k ^ 2)))).
  - intros q _. assert (P : 0 < q ^ 2 + k ^ 2) by (pose proof (pow2_ge_0 q); lra). assert (S : 0 < sqrt (q ^ 2 + k ^ 2)) by now apply sqrt_lt_R0. set (s := sqrt (q ^ 2 + k ^ 2)) in *.
    replace (q * ln (1 - exp (- (2 * L * s)))) with (scal (q / s) (s * ln (1 - exp (- (2 * L * s))))) by (unfold scal; cbn; unfold mult; cbn; field; lra). apply (is_derive_comp (V := R_NormedModule) (mirror_term L) (fun q => sqrt (q ^ 2 + k ^ 2))); [now apply term_derive|now apply root_derive].
  - intros q _. now apply log_continuous.
  - apply filterlim_comp with (Rbar_locally p_infty); [now apply root_infinity|now apply term_vanishes].
Qed.
Lemma energy_sum L T w c : 0 < L -> 0 < T -> 0 <= w <= / 2 -> 20 <= c ->
  Rabs (primed_sum w (fun k => - mirror_term L k / PI) 1e-10 T (Z.to_nat (trunc (c / (T * L)))) + PI ^ 3 / (360 * L ^ 3)) <= (T * zeta3 / (4 * L ^ 2) + 11 * exp (-40) / L ^ 3) / PI.
Proof.
  intros HL HT Hw Hc. pose proof PI_RGT_0. assert (P2 : 0 < L ^ 2) by now apply pow_lt. assert (M : Rabs (T * (w * mirror_term L 1e-10 + sum_f_R0 (fun i => if Nat.eqb i 0 then 0 else mirror_term L (INR i * T)) (Z.to_nat (trunc (c / (T * L))))) - mirror_tail L 0) <= T * mirror_term L 0 + mirror_tail L (c / L)).
  { apply (matsubara_near (mirror_term L) (mirror_tail L) (/ L ^ 2)); try assumption.
    - left. now apply Rinv_0_lt_compat.
    - intros k Hk. now apply term_bounds.
    - intros a b Hab. now apply P_less.
    - intros k Hk. now apply tail_derive.
    - intros k Hk. destruct (tail_bounds L HL k Hk) as [[_ A] B]. rewrite (tail_zero L HL). replace (/ L ^ 2 * k) with (k / L ^ 2) by (field; lra). lra.
    - lra.
    - lra.
    - intros k Hk. now apply tail_bounds. }
  assert (F : mirror_tail L (c / L) <= 11 * exp (-40) / L ^ 3) by (apply far_tail; [assumption|unfold Rdiv; apply Rmult_le_compat_r; [left; now apply Rinv_0_lt_compat|lra]]).
  rewrite (term_zero L HL), (tail_zero L HL) in M. unfold primed_sum. set (n := Z.to_nat _) in *. set (S0 := sum_f_R0 (fun i => if Nat.eqb i 0 then 0 else mirror_term L (INR i * T)) n) in *.
  replace (sum_f_R0 (fun i => if Nat.eqb i 0 then 0 else - mirror_term L (INR i * T) / PI) n) with (- / PI * S0) by (unfold S0; rewrite scal_sum; apply sum_eq; intros i _; destruct (Nat.eqb i 0); field; lra).
  replace (T * (w * (- mirror_term L 1e-10 / PI) + - / PI * S0) + PI ^ 3 / (360 * L ^ 3)) with (- / PI * (T * (w * mirror_term L 1e-10 + S0) - PI ^ 4 / (360 * L ^ 3))) by (field; lra).
  rewrite Rabs_mult, Rabs_Ropp, Rabs_pos_eq by (left; now apply Rinv_0_lt_compat). replace (T * zeta3 / (4 * L ^ 2)) with (T * (zeta3 / (4 * L ^ 2))) by (field; lra). set (B0 := T * (zeta3 / (4 * L ^ 2)) + 11 * exp (-40) / L ^ 3) in *. replace (B0 / PI) with (/ PI * B0) by (field; lra). apply Rmult_le_compat_l; [left; now apply Rinv_0_lt_compat|]. apply Rle_trans with (1 := M). unfold B0. lra.
Qed.
Lemma far_term L k : 0 < L -> 20 / L <= k -> mirror_term L k <= 21 * exp (-40) / L ^ 2.
Proof.
  intros HL Hk. assert (P3 : 0 < L ^ 2) by now apply pow_lt. assert (K0 : 0 < 20 / L) by (apply Rdiv_lt_0_compat; lra). apply Rle_trans with (mirror_term L (20 / L)); [apply P_less; lra|]. rewrite term_g by assumption.
  assert (E40 := exp_pos (-40)). assert (G : forall i, 0 <= g3 L (20 / L) i <= 41 * exp (-40) * inv_pow 3 i).
  { intros i. split; [apply g3_bounds; lra|]. unfold g3. rewrite Rmult_comm. apply Rmult_le_compat_r; [left; apply inv_pow_pos|]. assert (N : 1 <= INR (S i)) by (rewrite S_INR; pose proof (pos_INR i); lra).
    replace (2 * INR (S i) * L * (20 / L)) with (40 * INR (S i)) by (field; lra). set (n := INR (S i)) in *. replace (- (40 * n)) with (-40 + - (40 * (n - 1))) by ring. rewrite exp_plus.
    assert (F := exp_low (40 * (n - 1))). assert (I := exp_inv (40 * (n - 1))). assert (EP := exp_pos (- (40 * (n - 1)))). set (x := exp (- (40 * (n - 1)))) in *. assert (C : (1 + 40 * n) * x <= 41).
    { assert (1 + 40 * n <= 41 * exp (40 * (n - 1))) by lra. assert ((1 + 40 * n) * x <= 41 * exp (40 * (n - 1)) * x) by (apply Rmult_le_compat_r; lra). lra. }
    assert (exp (-40) * ((1 + 40 * n) * x) <= exp (-40) * 41) by (apply Rmult_le_compat_l; lra). lra. }
  destruct (zeta_ex 3 ltac:(lia)) as [Z [_ Z2]]. assert (B : Series (g3 L (20 / L)) <= 82 * exp (-40)).
  { apply Rle_trans with (Series (fun i => 41 * exp (-40) * inv_pow 3 i)); [apply Series_le; [exact G|now apply (ex_series_scal_l (41 * exp (-40)) (inv_pow 3))]|]. rewrite Series_scal_l. nra. }
  apply Rmult_le_reg_r with (L ^ 2); [assumption|]. replace (/ (4 * L ^ 2) * Series (g3 L (20 / L)) * L ^ 2) with (Series (g3 L (20 / L)) / 4) by (field; lra). replace (21 * exp (-40) / L ^ 2 * L ^ 2) with (21 * exp (-40)) by (field; lra). lra.
Qed.
(** more frequencies: the sums of both classes differ by at most the far terms *)
Lemma more_frequencies L T w : 0 < L -> 0 < T -> let I := fun k => - mirror_term L k / PI in
  - (T * 21 * exp (-40) / L ^ 2 + 11 * exp (-40) / L ^ 3) / PI <= primed_sum w I 1e-10 T (Z.to_nat (trunc (100 / (T * L)))) - primed_sum w I 1e-10 T (Z.to_nat (trunc (20 / (T * L)))) <= 0.
Proof.
  intros HL HT I. pose proof PI_RGT_0. assert (IP : 0 < / PI) by now apply Rinv_0_lt_compat. assert (P2 : 0 < L ^ 2) by now apply pow_lt. assert (P3 : 0 < L ^ 3) by now apply pow_lt. assert (TL : 0 < T * L) by now apply Rmult_lt_0_compat. set (n := Z.to_nat (trunc (20 / (T * L)))). set (m := Z.to_nat (trunc (100 / (T * L)))).
  assert (D : 0 < 20 / (T * L)) by (apply Rdiv_lt_0_compat; lra). assert (NM : (n <= m)%nat). { unfold n, m. apply Z2Nat.inj_le; [apply trunc_nonneg; lra|apply trunc_nonneg; apply Rlt_le, Rdiv_lt_0_compat; lra|apply trunc_mono]. unfold Rdiv. apply Rmult_le_compat_r; [left; now apply Rinv_0_lt_compat|lra]. }
  assert (N : 20 / L <= INR (S n) * T). { assert (G := trunc_gt _ (Rlt_le _ _ D)). assert (Z := trunc_nonneg _ (Rlt_le _ _ D)). assert (E : INR n = IZR (trunc (20 / (T * L)))) by (unfold n; rewrite INR_IZR_INZ, Z2Nat.id by assumption; reflexivity). rewrite S_INR, E. replace (20 / L) with (20 / (T * L) * T) by (field; lra). apply Rmult_le_compat_r; lra. }
  set (J := fun i : nat => if Nat.eqb i 0 then 0 else mirror_term L (INR i * T)). assert (S0 : forall k, sum_f_R0 (fun i => if Nat.eqb i 0 then 0 else I (INR i * T)) k = - / PI * sum_f_R0 J k) by (intros k; rewrite scal_sum; apply sum_eq; intros i _; unfold J, I; destruct (Nat.eqb i 0); field; lra).
  assert (PT : forall k, 0 <= T * mirror_term L (INR k * T)) by (intros k; apply Rmult_le_pos; [lra|]; apply term_bounds; [assumption|]; apply Rmult_le_pos; [apply pos_INR|lra]).
  assert (B : forall k, 0 <= T * (sum_f_R0 J (S n + k) - sum_f_R0 J n) <= T * mirror_term L (INR (S n) * T) + (mirror_tail L (INR (S n) * T) - mirror_tail L (INR (S n + k) * T))).
  { induction k as [|k IH].
    - rewrite Nat.add_0_r. cbn [sum_f_R0]. assert (X := PT (S n)). change (J (S n)) with (mirror_term L (INR (S n) * T)). lra.
    - rewrite Nat.add_succ_r. cbn [sum_f_R0]. assert (JE : J (S (S n + k)) = mirror_term L (INR (S (S n + k)) * T)) by reflexivity. assert (X := PT (S (S n + k))). rewrite <- JE in X. assert (HA : 0 <= INR (S n + k) * T) by (apply Rmult_le_pos; [apply pos_INR|lra]).
      destruct (Q_step L HL (INR (S n + k) * T) (INR (S (S n + k)) * T)) as [Y _]; [rewrite (S_INR (S n + k)); split; lra|]. rewrite <- JE in Y. rewrite (S_INR (S n + k)) in *. replace ((INR (S n + k) + 1) * T - INR (S n + k) * T) with T in Y by ring. lra. }
  assert (FT := far_term L _ HL N). assert (FQ := far_tail L HL _ N). assert (C : 0 <= T * (sum_f_R0 J m - sum_f_R0 J n) <= T * (21 * exp (-40) / L ^ 2) + 11 * exp (-40) / L ^ 3).
  { assert (E40 := exp_pos (-40)). assert (Z1 : 0 <= 21 * exp (-40) / L ^ 2) by (apply Rdiv_le_0_compat; lra). assert (Z2 : 0 <= 11 * exp (-40) / L ^ 3) by (apply Rdiv_le_0_compat; lra). assert (Z3 : 0 <= T * (21 * exp (-40) / L ^ 2)) by (apply Rmult_le_pos; lra). destruct (Nat.eq_dec n m) as [->|NE]; [lra|]. replace m with (S n + (m - S n))%nat by lia. destruct (B (m - S n)%nat) as [B1 B2]. split; [exact B1|]. apply Rle_trans with (1 := B2). assert (T * mirror_term L (INR (S n) * T) <= T * (21 * exp (-40) / L ^ 2)) by (apply Rmult_le_compat_l; lra).
    assert (0 <= mirror_tail L (INR (S n + (m - S n)) * T)) by (apply tail_bounds; [assumption|apply Rmult_le_pos; [apply pos_INR|lra]]). lra. }
  unfold primed_sum. rewrite !S0. set (x := sum_f_R0 J m) in *. set (y := sum_f_R0 J n) in *. replace (T * (w * I 1e-10 + - / PI * x) - T * (w * I 1e-10 + - / PI * y)) with (/ PI * - (T * (x - y))) by ring.
  replace (- (T * 21 * exp (-40) / L ^ 2 + 11 * exp (-40) / L ^ 3) / PI) with (/ PI * - (T * (21 * exp (-40) / L ^ 2) + 11 * exp (-40) / L ^ 3)) by (field; lra). split; [apply Rmult_le_compat_l; lra|]. rewrite <- (Rmult_0_r (/ PI)). apply Rmult_le_compat_l; lra.
Qed.
Section C92.
Context (quad : quadrature) (Hquad : exact_quad quad) (p : pfa) (e u : R -> R) (Hp : mirrors p e u).
(** high temperature: the integral over wave vectors starts at 1e-10 *)
Theorem C92_high_temperature : forall L, 0 < L -> exists v, raw_pp quad p PInf L false = Val v /\
  - zeta3 / (8 * PI * L ^ 2) <= v <= - zeta3 / (8 * PI * L ^ 2) + sqrt (1e-10 ^ 2 + (sqrt (e 1e-20 * u 1e-20) * 1e-20) ^ 2) / (2 * PI * L).
Proof.
  intros L HL. pose proof PI_RGT_0. assert (k0 : 0 < 1e-20) by lra. assert (K := index_pos p e u Hp _ k0). set (K0 := sqrt (e 1e-20 * u 1e-20) * 1e-20) in *. set (s := sqrt (1e-10 ^ 2 + K0 ^ 2)). assert (S0 : 0 <= s) by apply sqrt_pos. assert (I := frequency_integral_from L 1e-10 K0 HL K). fold s in I. set (P := mirror_term L s) in *.
  assert (A : intTE quad p 1e-10 L 1e-20 = Val (- P / (2 * PI)) /\ intTM quad p 1e-10 L 1e-20 = Val (- P / (2 * PI))).
  { unfold intTE, intTM, kperp_integral. replace (- P / (2 * PI)) with (/ (2 * PI) * - P) by (field; lra). split; (apply (Hquad _ (fun q => / (2 * PI) * (q * ln (1 - exp (- (2 * L * sqrt (q ^ 2 + K0 ^ 2))))))); [|now apply scal_integral]); intros q Hq; destruct (mirror_values p e u q 1e-20 L Hp ltac:(lra) k0 HL) as [-> _]; cbn [obind ofst osnd]; fold K0; f_equal; field; lra. }
  destruct A as [A1 A2]. eexists. split; [apply (proj1 (C56_limits_of_temperature quad p L false _ _) A1 A2)|]. cbv iota. destruct (term_bounds L HL s S0) as [[T0 T1] T2]. fold P in T0, T1, T2. assert (IP : 0 < / (2 * PI)) by (apply Rinv_0_lt_compat; lra).
  replace ((- P / (2 * PI) + - P / (2 * PI)) / 2) with (/ (2 * PI) * - P) by (field; lra). replace (- zeta3 / (8 * PI * L ^ 2)) with (/ (2 * PI) * - (zeta3 / (4 * L ^ 2))) by (field; lra). replace (s / (2 * PI * L)) with (/ (2 * PI) * (s / L)) by (field; lra). rewrite <- Rmult_plus_distr_l. split; apply Rmult_le_compat_l; lra.
Qed.
Context (Hv : forall k, 0 < k -> e k * u k = 1).
(** zero temperature: the same value as the other class *)
Theorem C92_zero_temperature : forall L s s', 0 < L -> exists v, raw_pp quad p (Fin 0) L s = Val v /\ planeplaneFreeEnergy quad p (Fin 0) L s' = Val v /\
  - PI ^ 3 / (360 * L ^ 3) <= v <= - PI ^ 3 / (360 * L ^ 3) + 1e-20 / (PI * L ^ 2).
Proof.
  intros L s s' HL. pose proof PI_RGT_0. assert (k0 : 0 < 1e-20) by lra. destruct (C89_zero_temperature quad Hquad p e u Hp Hv L s' HL) as [v [E B]]. exists v. split; [|now split].
  assert (A : quad (intTE quad p 0 L) 1e-20 PInf = Val (/ (2 * PI) * - mirror_tail L 1e-20) /\ quad (intTM quad p 0 L) 1e-20 PInf = Val (/ (2 * PI) * - mirror_tail L 1e-20)).
  { split; (apply (Hquad _ (fun k => / (2 * PI) * - mirror_term L k)); [|apply scal_integral, energy_integral; assumption]); intros k Hk; assert (K : 0 < k) by lra; unfold intTE, intTM; destruct (C89_frequency quad Hquad p e u Hp k L K HL) as [_ [X Y]]; [rewrite X|rewrite Y]; rewrite (vacuum_index e u Hv) by assumption; f_equal; field; lra. }
  destruct A as [A1 A2]. rewrite (proj2 (C56_limits_of_temperature quad p L s _ _) A1 A2). f_equal.
  assert (X : planeplaneFreeEnergy quad p (Fin 0) L s' = Val (/ PI * - mirror_tail L 1e-20)). { rewrite (proj1 (C55_zero_temperature quad p L s')). apply (Hquad _ (fun k => / PI * - mirror_term L k)); [|apply scal_integral, energy_integral; assumption]. intros k Hk. assert (K : 0 < k) by lra. rewrite (proj1 (C89_frequency quad Hquad p e u Hp k L K HL)), (vacuum_index e u Hv) by assumption. f_equal. field. lra. }
  rewrite X in E. injection E as <-. field. lra.
Qed.
(** any temperature: both classes agree up to the far terms *)
Theorem C92_temperature : forall T L s, 0 < T -> 0 < L -> exists v w, raw_pp quad p (Fin T) L s = Val v /\ planeplaneFreeEnergy quad p (Fin T) L s = Val w /\
  v = primed_sum (if s then 0 else / 2) (fun k => - mirror_term L k / PI) 1e-10 T (Z.to_nat (trunc (100 / (T * L)))) /\
  - (T * 21 * exp (-40) / L ^ 2 + 11 * exp (-40) / L ^ 3) / PI <= v - w <= 0 /\ Rabs (v + PI ^ 3 / (360 * L ^ 3)) <= (T * zeta3 / (4 * L ^ 2) + 11 * exp (-40) / L ^ 3) / PI.
Proof.
  intros T L s HT HL. pose proof PI_RGT_0. assert (TL : 0 < T * L) by now apply Rmult_lt_0_compat. destruct (C89_temperature quad Hquad p e u Hp Hv T L s HT HL) as [E _].
  exists (primed_sum (if s then 0 else / 2) (fun k => - mirror_term L k / PI) 1e-10 T (Z.to_nat (trunc (100 / (T * L))))). eexists. split; [|split; [exact E|split; [reflexivity|split; [now apply more_frequencies|apply energy_sum; try assumption; try lra; destruct s; lra]]]].
  cbn [raw_pp]. destruct (Reqb_spec T 0); [lra|]. rewrite (C56_free_energy quad p T L s (fun k => - mirror_term L k / (2 * PI)) (fun k => - mirror_term L k / (2 * PI))); [|lra|lra|].
  - f_equal. unfold primed_sum. set (m := Z.to_nat _). f_equal. f_equal; [f_equal; field; lra|]. apply sum_eq. intros i _. destruct (Nat.eqb i 0); [reflexivity|field; lra].
  - intros k Hk. assert (K : 0 < k) by (apply in_matsubaras with (3 := Hk); lra). unfold intTE, intTM. destruct (C89_frequency quad Hquad p e u Hp k L K HL) as [_ [X Y]]. rewrite X, Y, (vacuum_index e u Hv) by assumption. now split.
Qed.
(** spheres at zero temperature; [R] is r1 r2/(r1 + r2) outside and r1 r2/(r2 - r1) inside *)
Definition curvature (r1 r2 : R) (ext : bool) : R := if ext then r1 * r2 / (r1 + r2) else r1 * r2 / (r2 - r1).
Lemma raw_values r1 r2 T L s ext f : r1 + r2 <> 0 -> r1 <> r2 -> raw_pp quad p T L s = Val f ->
  raw_force quad p r1 r2 T L s ext = Val (2 * PI * curvature r1 r2 ext * f) /\ raw_energy quad p r1 r2 T L s ext = Val (L * PI * curvature r1 r2 ext * f).
Proof.
  intros H1 H2 Hf. unfold raw_force, raw_energy. rewrite !(mdiv_val _ (r1 + r2)) by assumption. rewrite !(mdiv_val _ (r2 - r1)) by lra. destruct ext; cbn [obind curvature]; rewrite Hf; cbn [obind]; split; f_equal; field; lra.
Qed.
Theorem C92_spheres : forall r1 r2 L s ext, 0 < r1 < r2 -> 0 < L -> let G := curvature r1 r2 ext in
  exists f E, raw_force quad p r1 r2 (Fin 0) L s ext = Val f /\ raw_energy quad p r1 r2 (Fin 0) L s ext = Val E /\
    - PI ^ 4 * G / (180 * L ^ 3) <= f <= - PI ^ 4 * G / (180 * L ^ 3) + 2e-20 * G / L ^ 2 /\ - PI ^ 4 * G / (360 * L ^ 2) <= E <= - PI ^ 4 * G / (360 * L ^ 2) + 1e-20 * G / L.
Proof.
  intros r1 r2 L s ext [H1 H2] HL G. pose proof PI_RGT_0. assert (HG : 0 < G) by (unfold G, curvature; destruct ext; apply Rdiv_lt_0_compat; try lra; apply Rmult_lt_0_compat; lra). destruct (C92_zero_temperature L s s HL) as [v [E [_ [B1 B2]]]]. destruct (raw_values r1 r2 (Fin 0) L s ext v ltac:(lra) ltac:(lra) E) as [F W]. fold G in F, W. do 2 eexists. split; [exact F|]. split; [exact W|].
  assert (M : 0 < PI * G) by now apply Rmult_lt_0_compat. split.
  - replace (- PI ^ 4 * G / (180 * L ^ 3)) with (2 * PI * G * (- PI ^ 3 / (360 * L ^ 3))) by (field; lra). replace (2e-20 * G / L ^ 2) with (2 * PI * G * (1e-20 / (PI * L ^ 2))) by (field; lra). rewrite <- Rmult_plus_distr_l. split; apply Rmult_le_compat_l; lra.
  - assert (M2 : 0 < L * PI * G) by (rewrite Rmult_assoc; now apply Rmult_lt_0_compat). replace (- PI ^ 4 * G / (360 * L ^ 2)) with (L * PI * G * (- PI ^ 3 / (360 * L ^ 3))) by (field; lra). replace (1e-20 * G / L) with (L * PI * G * (1e-20 / (PI * L ^ 2))) by (field; lra). rewrite <- Rmult_plus_distr_l. split; apply Rmult_le_compat_l; lra.
Qed.
(** at high temperature the energy is half of the potential of the force: -zeta(3) R/(8 L) instead of -zeta(3) R/(4 L) *)
Theorem C92_energy_refuted : forall r1 r2 L ext, 0 < r1 < r2 -> 0 < L -> let G := curvature r1 r2 ext in
  exists f E, raw_force quad p r1 r2 PInf L false ext = Val f /\ raw_energy quad p r1 r2 PInf L false ext = Val E /\
    - zeta3 * G / (4 * L ^ 2) <= f <= - zeta3 * G / (4 * L ^ 2) + 2e-10 * G / L /\ is_derive (fun L => - zeta3 * G / (4 * L)) L (- (- zeta3 * G / (4 * L ^ 2))) /\
    - zeta3 * G / (4 * L) + zeta3 * G / (8 * L) <= E <= - zeta3 * G / (8 * L) + 1e-10 * G.
Proof.
  intros r1 r2 L ext [H1 H2] HL G. pose proof PI_RGT_0. assert (HG : 0 < G) by (unfold G, curvature; destruct ext; apply Rdiv_lt_0_compat; try lra; apply Rmult_lt_0_compat; lra). destruct (C92_high_temperature L HL) as [v [E [B1 B2]]]. destruct (raw_values r1 r2 PInf L false ext v ltac:(lra) ltac:(lra) E) as [F W]. fold G in F, W. do 2 eexists. split; [exact F|]. split; [exact W|].
  assert (M : 0 < PI * G) by now apply Rmult_lt_0_compat. assert (R : sqrt (1e-10 ^ 2 + (sqrt (e 1e-20 * u 1e-20) * 1e-20) ^ 2) <= 2e-10). { rewrite Hv, sqrt_1 by lra. rewrite <- (sqrt_pow2 2e-10) by lra. apply sqrt_le_1_alt. lra. }
  set (s := sqrt (1e-10 ^ 2 + _)) in *. assert (B3 : s / (2 * PI * L) <= 2e-10 / (2 * PI * L)). { unfold Rdiv. apply Rmult_le_compat_r; [|exact R]. left. apply Rinv_0_lt_compat. apply Rmult_lt_0_compat; lra. }
  split; [|split].
  - replace (- zeta3 * G / (4 * L ^ 2)) with (2 * PI * G * (- zeta3 / (8 * PI * L ^ 2))) by (field; lra). replace (2e-10 * G / L) with (2 * PI * G * (2e-10 / (2 * PI * L))) by (field; lra). rewrite <- Rmult_plus_distr_l. split; apply Rmult_le_compat_l; lra.
  - auto_derive; [lra|field; lra].
  - assert (M2 : 0 <= L * PI * G) by (rewrite Rmult_assoc; apply Rmult_le_pos; lra). replace (- zeta3 * G / (4 * L) + zeta3 * G / (8 * L)) with (L * PI * G * (- zeta3 / (8 * PI * L ^ 2))) by (field; lra). replace (- zeta3 * G / (8 * L)) with (L * PI * G * (- zeta3 / (8 * PI * L ^ 2))) by (field; lra). replace (1e-10 * G) with (L * PI * G * (2e-10 / (2 * PI * L))) by (field; lra). rewrite <- Rmult_plus_distr_l. split; apply Rmult_le_compat_l; lra.
Qed.
End C92.
Print Assumptions C92_high_temperature.
Print Assumptions C92_zero_temperature.
Print Assumptions C92_temperature.
Print Assumptions C92_spheres.
Print Assumptions C92_energy_refuted.

(** ** not vacuous *)
Example C92_example : exists v w, raw_pp the_integral pec_pec (Fin 1) 1 false = Val v /\ planeplaneFreeEnergy the_integral pec_pec (Fin 1) 1 false = Val w /\ v <= w.
Proof. destruct (C92_temperature _ the_integral_exact pec_pec _ _ vacuum_mirrors vacuum_one 1 1 false ltac:(lra) ltac:(lra)) as [v [w [A [B [_ [C _]]]]]]. exists v, w. split; [exact A|]. split; [exact B|]. lra. Qed.
Example C92_spheres_example : exists f E, raw_force the_integral pec_pec 1 3 (Fin 0) 2 false true = Val f /\ raw_energy the_integral pec_pec 1 3 (Fin 0) 2 false true = Val E /\ f < 0 /\ E < 0.
Proof.
  destruct (C92_spheres _ the_integral_exact pec_pec _ _ vacuum_mirrors vacuum_one 1 3 2 false true ltac:(lra) ltac:(lra)) as [f [E [A [B [C D]]]]]. unfold curvature in C, D. exists f, E. split; [exact A|]. split; [exact B|]. pose proof PI2_3_2. assert (1 < PI ^ 4) by (apply Rlt_pow_R1; [lra|lia]). lra.
Qed.
