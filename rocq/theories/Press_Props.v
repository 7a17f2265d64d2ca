(** * Property C91 (pressure between perfect reflectors, with an exact quadrature) *)
From Coq Require Import Reals.
From Coquelicot Require Import Coquelicot.
From Coq Require Import Bool ZArith List Lia Lra Psatz.
From Verif Require Import Base Mat_Model Mat_Spec Scat_Model Scat_Spec Scat_Proofs Scat_Proofs2 Scat_Props PFA_Model PFA_Spec PFA_Proofs PFA_Proofs3 PFA_Props PFA_Props2 Plate_Spec Zeta_Proofs Plate_Proofs Plate_Proofs2 Plate_Props Slab_Proofs Press_Spec Press_Proofs.
Import ListNotations.
Open Scope R_scope.

Lemma mirror_pressures p e u q k L : mirrors p e u -> 0 <= q -> 0 < k -> 0 < L ->
  let K := sqrt (q ^ 2 + (sqrt (e k * u k) * k) ^ 2) in let v := - K * exp (- (2 * L * K)) / (1 - exp (- (2 * L * K))) in pressureRoundTrips p q k L = Val (v, v) /\ pressureRoundTrip p q k L = Val (2 * v).
Proof.
  intros [H1 [H2 Hm]] Hq Hk HL K v. destruct (has_pos _ e u k Hm Hk) as [E U]. assert (P : 0 < e k * u k) by now apply Rmult_lt_0_compat.
  assert (P1 : plate (p_mat1 p) (p_md p) (fun _ _ => (-1, 1))) by (rewrite H1; apply pec_plate). assert (P2 : plate (p_mat2 p) (p_md p) (fun _ _ => (-1, 1))) by (rewrite H2; apply pec_plate).
  destruct (all_values p _ _ e u P1 P2 Hm q k L Hq Hk HL) as [_ [_ [A [B _]]]]. cbn [fst snd] in A, B. assert (X : kz (fun k => e k * u k) q k = K) by (unfold kz, K; rewrite Rpow_mult_distr, pow2_sqrt by lra; reflexivity). rewrite X in A, B.
  replace (-1 * -1 * exp (-2 * K * L)) with (exp (- (2 * L * K))) in A, B by (replace (-2 * K * L) with (- (2 * L * K)) by ring; ring). replace (1 * 1 * exp (-2 * K * L)) with (exp (- (2 * L * K))) in A, B by (replace (-2 * K * L) with (- (2 * L * K)) by ring; ring).
  split; [exact A|]. rewrite B. f_equal. fold v. ring.
Qed.
Lemma in_matsubaras k0 T n k : 0 < k0 -> 0 < T -> In k (matsubaras k0 T n) -> 0 < k.
Proof. intros H0 HT [<-|Hin]; [assumption|]. apply in_map_iff in Hin. destruct Hin as [i [<- Hi]]. apply in_seq in Hi. apply Rmult_lt_0_compat; [apply lt_0_INR; lia|assumption]. Qed.
Lemma press_falls L : 0 < L -> forall a b, 0 <= a <= b -> press_tail L b <= press_tail L a.
Proof.
  intros HL. assert (P3 : 0 < L ^ 3) by now apply pow_lt. apply (falling (press_term L) (press_tail L) (3 / 2 / L ^ 3)).
  - left. apply Rdiv_lt_0_compat; lra.
  - intros k Hk. now apply press_term_bounds.
  - intros a b H. now apply R_less.
  - intros k Hk. now apply press_tail_derive.
  - intros k Hk. destruct (press_tail_bounds L HL k Hk) as [[_ A] B]. rewrite (proj2 (press_zero L HL)). replace (3 / 2 / L ^ 3 * k) with (3 / 2 * k / L ^ 3) by (field; lra). lra.
Qed.
Lemma press_far L k : 0 < L -> 20 / L <= k -> press_tail L k <= 222 * exp (-40) / L ^ 4.
Proof.
  intros HL Hk. assert (P4 : 0 < L ^ 4) by now apply pow_lt. assert (K0 : 0 < 20 / L) by (apply Rdiv_lt_0_compat; lra). apply Rle_trans with (press_tail L (20 / L)); [apply press_falls; lra|]. rewrite press_tail_fam by assumption.
  assert (E40 := exp_pos (-40)). assert (G : forall i, 0 <= fam L w4 4 (20 / L) i <= 295 * exp (-40) * inv_pow 4 i).
  { intros i. split; [apply (fam_bounds L HL w4 4 (le_S _ _ (le_n 3)) (fun y H => proj2 (w_bounds y H))); lra|]. unfold fam. rewrite Rmult_comm. apply Rmult_le_compat_r; [left; apply inv_pow_pos|]. assert (N : 1 <= INR (S i)) by (rewrite S_INR; pose proof (pos_INR i); lra).
    replace (2 * INR (S i) * L * (20 / L)) with (40 * INR (S i)) by (field; lra). set (n := INR (S i)) in *. unfold w4. replace (- (40 * n)) with (-40 + - (40 * (n - 1))) by ring. rewrite exp_plus.
    assert (F := exp_taylor2 (40 * (n - 1)) ltac:(lra)). assert (I := exp_inv (40 * (n - 1))). assert (EP := exp_pos (- (40 * (n - 1)))). set (x := exp (- (40 * (n - 1)))) in *. assert (B : 1 + 2 / 3 * (40 * n) + (40 * n) ^ 2 / 6 <= 295 * exp (40 * (n - 1))). { apply Rle_trans with (295 * (1 + 40 * (n - 1) + (40 * (n - 1)) ^ 2 / 2)); [|lra]. assert (0 <= (n - 1) * (n - 1)) by (apply Rmult_le_pos; lra). cbn [pow]. lra. }
    assert ((1 + 2 / 3 * (40 * n) + (40 * n) ^ 2 / 6) * x <= 295 * exp (40 * (n - 1)) * x) by (apply Rmult_le_compat_r; lra). assert (C : (1 + 2 / 3 * (40 * n) + (40 * n) ^ 2 / 6) * x <= 295) by lra. assert (exp (-40) * ((1 + 2 / 3 * (40 * n) + (40 * n) ^ 2 / 6) * x) <= exp (-40) * 295) by (apply Rmult_le_compat_l; lra). lra. }
  destruct (zeta_ex 4 ltac:(lia)) as [Z [_ Z2]]. assert (B : Series (fam L w4 4 (20 / L)) <= 590 * exp (-40)).
  { apply Rle_trans with (Series (fun i => 295 * exp (-40) * inv_pow 4 i)); [apply Series_le; [exact G|now apply (ex_series_scal_l (295 * exp (-40)) (inv_pow 4))]|]. rewrite Series_scal_l. nra. }
  apply Rmult_le_reg_r with (L ^ 4); [assumption|]. set (s := Series (fam L w4 4 (20 / L))) in *. replace (3 / (8 * L ^ 4) * s * L ^ 4) with (3 / 8 * s) by (field; lra). replace (222 * exp (-40) / L ^ 4 * L ^ 4) with (222 * exp (-40)) by (field; lra). lra.
Qed.
Lemma pressure_sum L T w c : 0 < L -> 0 < T -> 0 <= w <= / 2 -> 20 <= c ->
  Rabs (primed_sum w (fun k => - press_term L k / PI) 1e-20 T (Z.to_nat (trunc (c / (T * L)))) + PI ^ 3 / (240 * L ^ 4)) <= (T * zeta3 / (4 * L ^ 3) + 222 * exp (-40) / L ^ 4) / PI.
Proof.
  intros HL HT Hw Hc. pose proof PI_RGT_0. assert (P3 : 0 < L ^ 3) by now apply pow_lt. assert (M : Rabs (T * (w * press_term L 1e-20 + sum_f_R0 (fun i => if Nat.eqb i 0 then 0 else press_term L (INR i * T)) (Z.to_nat (trunc (c / (T * L))))) - press_tail L 0) <= T * press_term L 0 + press_tail L (c / L)).
  { apply (matsubara_near (press_term L) (press_tail L) (3 / 2 / L ^ 3)); try assumption.
    - left. apply Rdiv_lt_0_compat; lra.
    - intros k Hk. now apply press_term_bounds.
    - intros a b Hab. now apply R_less.
    - intros k Hk. now apply press_tail_derive.
    - intros k Hk. destruct (press_tail_bounds L HL k Hk) as [[_ A] B]. rewrite (proj2 (press_zero L HL)). replace (3 / 2 / L ^ 3 * k) with (3 / 2 * k / L ^ 3) by (field; lra). lra.
    - lra.
    - lra.
    - intros k Hk. now apply press_tail_bounds. }
  assert (F : press_tail L (c / L) <= 222 * exp (-40) / L ^ 4) by (apply press_far; [assumption|unfold Rdiv; apply Rmult_le_compat_r; [left; now apply Rinv_0_lt_compat|lra]]).
  rewrite (proj1 (press_zero L HL)), (proj2 (press_zero L HL)) in M. unfold primed_sum. set (n := Z.to_nat _) in *. set (S0 := sum_f_R0 (fun i => if Nat.eqb i 0 then 0 else press_term L (INR i * T)) n) in *.
  replace (sum_f_R0 (fun i => if Nat.eqb i 0 then 0 else - press_term L (INR i * T) / PI) n) with (- / PI * S0) by (unfold S0; rewrite scal_sum; apply sum_eq; intros i _; destruct (Nat.eqb i 0); field; lra).
  replace (T * (w * (- press_term L 1e-20 / PI) + - / PI * S0) + PI ^ 3 / (240 * L ^ 4)) with (- / PI * (T * (w * press_term L 1e-20 + S0) - PI ^ 4 / (240 * L ^ 4))) by (field; lra).
  rewrite Rabs_mult, Rabs_Ropp, Rabs_pos_eq by (left; now apply Rinv_0_lt_compat). replace (T * zeta3 / (4 * L ^ 3)) with (T * (zeta3 / (4 * L ^ 3))) by (field; lra). set (B0 := T * (zeta3 / (4 * L ^ 3)) + 222 * exp (-40) / L ^ 4) in *. replace (B0 / PI) with (/ PI * B0) by (field; lra). apply Rmult_le_compat_l; [left; now apply Rinv_0_lt_compat|]. apply Rle_trans with (1 := M). unfold B0. lra.
Qed.
Lemma small40 : exp (-40) <= 1e-6.
Proof.
  assert (E : 5 <= exp 4) by (pose proof (exp_low 4); lra). assert (X : exp 40 = exp 4 ^ 10) by (rewrite <- (Rpower_pow _ _ (exp_pos _)); unfold Rpower; rewrite ln_exp; f_equal; rewrite INR_IZR_INZ; simpl Z.of_nat; lra).
  assert (Y : 5 ^ 10 <= exp 4 ^ 10) by (apply pow_incr; lra). assert (Z := exp_inv 40). assert (W := exp_pos (-40)). replace (- (40)) with (-40) in Z by lra. rewrite <- X in Y. set (a := exp 40) in *. set (b := exp (-40)) in *. clearbody a b. clear X E. assert (9000000 <= a) by lra. nra.
Qed.
Section C91.
Context (quad : quadrature) (Hquad : exact_quad quad) (p : pfa) (e u : R -> R) (Hp : mirrors p e u).
(** the contribution of one frequency, in any medium *)
Theorem C91_frequency : forall k L, 0 < k -> 0 < L ->
  kperp_integral quad (fun q => pressureRoundTrip p q k L) 0 = Val (- press_term L (sqrt (e k * u k) * k) / PI) /\
  kperp_integral quad (fun q => ofst (pressureRoundTrips p q k L)) 0 = Val (- press_term L (sqrt (e k * u k) * k) / (2 * PI)) /\
  kperp_integral quad (fun q => osnd (pressureRoundTrips p q k L)) 0 = Val (- press_term L (sqrt (e k * u k) * k) / (2 * PI)).
Proof.
  intros k L Hk HL. pose proof PI_RGT_0. assert (K := index_pos p e u Hp k Hk). set (K0 := sqrt (e k * u k) * k) in *. assert (I := press_integral L HL K0 K). unfold kperp_integral. split; [|split].
  - apply (Hquad _ (fun q => / PI * (q * (- sqrt (q ^ 2 + K0 ^ 2) * exp (- (2 * L * sqrt (q ^ 2 + K0 ^ 2))) / (1 - exp (- (2 * L * sqrt (q ^ 2 + K0 ^ 2)))))))).
    + intros q Hq. destruct (mirror_pressures p e u q k L Hp Hq Hk HL) as [_ ->]. cbn [obind]. fold K0. f_equal. set (x := _ / (1 - _)). field. lra.
    + replace (- press_term L K0 / PI) with (/ PI * - press_term L K0) by (field; lra). now apply scal_integral.
  - apply (Hquad _ (fun q => / (2 * PI) * (q * (- sqrt (q ^ 2 + K0 ^ 2) * exp (- (2 * L * sqrt (q ^ 2 + K0 ^ 2))) / (1 - exp (- (2 * L * sqrt (q ^ 2 + K0 ^ 2)))))))).
    + intros q Hq. destruct (mirror_pressures p e u q k L Hp Hq Hk HL) as [-> _]. cbn [obind ofst]. fold K0. f_equal. set (x := _ / (1 - _)). field. lra.
    + replace (- press_term L K0 / (2 * PI)) with (/ (2 * PI) * - press_term L K0) by (field; lra). now apply scal_integral.
  - apply (Hquad _ (fun q => / (2 * PI) * (q * (- sqrt (q ^ 2 + K0 ^ 2) * exp (- (2 * L * sqrt (q ^ 2 + K0 ^ 2))) / (1 - exp (- (2 * L * sqrt (q ^ 2 + K0 ^ 2)))))))).
    + intros q Hq. destruct (mirror_pressures p e u q k L Hp Hq Hk HL) as [-> _]. cbn [obind osnd]. fold K0. f_equal. set (x := _ / (1 - _)). field. lra.
    + replace (- press_term L K0 / (2 * PI)) with (/ (2 * PI) * - press_term L K0) by (field; lra). now apply scal_integral.
Qed.
(** it is half of minus the derivative of the contribution to the energy, whole integrals included *)
Theorem C91_derivative_refuted : forall k, 0 < k -> exists F P : R -> R,
  (forall L, 0 < L -> kperp_integral quad (fun q => roundTrip p q k L) 0 = Val (F L)) /\ (forall L, 0 < L -> kperp_integral quad (fun q => pressureRoundTrip p q k L) 0 = Val (P L)) /\
  forall L, 0 < L -> P L < 0 /\ is_derive F L (- (2 * P L)) /\ ~ is_derive F L (- P L).
Proof.
  intros k Hk. pose proof PI_RGT_0. assert (K := index_pos p e u Hp k Hk). set (K0 := sqrt (e k * u k) * k) in *. exists (fun L => - mirror_term L K0 / PI), (fun L => - press_term L K0 / PI).
  split; [intros L HL; apply (C89_frequency quad Hquad p e u Hp k L Hk HL)|]. split; [intros L HL; now apply C91_frequency|]. intros L HL. assert (IP : 0 < / PI) by now apply Rinv_0_lt_compat.
  assert (N : 0 < press_term L K0).
  { rewrite press_term_fam by assumption. assert (L3 : 0 < L ^ 3) by (now apply pow_lt). apply Rmult_lt_0_compat; [apply Rinv_0_lt_compat; lra|]. apply Rlt_le_trans with (fam L w3 3 K0 0).
    - unfold fam. apply Rmult_lt_0_compat; [apply inv_pow_pos|]. assert (Y := arg_nonneg L HL 0 K0 (Rlt_le _ _ K)). unfold w3. apply Rmult_lt_0_compat; [pose proof (pow2_ge_0 (2 * INR 1 * L * K0)); lra|apply exp_pos].
    - rewrite (Series_incr_1 _ (fam_ex L HL w3 3 (le_n 3) (fun y H => proj1 (w_bounds y H)) K0 (Rlt_le _ _ K))). assert (0 <= Series (fun i => fam L w3 3 K0 (S i))); [|lra]. apply series_nonneg; [|apply (ex_series_incr_1 (fam L w3 3 K0)), (fam_ex L HL w3 3 (le_n 3) (fun y H => proj1 (w_bounds y H)) K0 (Rlt_le _ _ K))]. intros i. apply (fam_bounds L HL w3 3 (le_n 3) (fun y H => proj1 (w_bounds y H)) K0 (S i) (Rlt_le _ _ K)). }
  assert (D : is_derive (fun L => - mirror_term L K0 / PI) L (- (2 * (- press_term L K0 / PI)))).
  { apply (is_derive_ext (fun L => (- / PI) * mirror_term L K0)); [intros t; change (- / PI * mirror_term t K0 = - mirror_term t K0 / PI); field; lra|]. replace (- (2 * (- press_term L K0 / PI))) with ((- / PI) * (-2 * press_term L K0)) by (field; lra). apply (is_derive_scal (fun L => mirror_term L K0)). now apply energy_distance. }
  assert (X : - press_term L K0 / PI < 0). { unfold Rdiv. rewrite Ropp_mult_distr_l_reverse. assert (0 < press_term L K0 * / PI) by now apply Rmult_lt_0_compat. lra. }
  split; [exact X|]. split; [exact D|]. intros D'. assert (U := eq_trans (eq_sym (is_derive_unique _ _ _ D)) (is_derive_unique _ _ _ D')). change (- (2 * (- press_term L K0 / PI)) = - (- press_term L K0 / PI)) in U. lra.
Qed.
Context (Hv : forall k, 0 < k -> e k * u k = 1).
(** any temperature: the sum over frequencies, for both classes *)
Theorem C91_temperature : forall T L s, 0 < T -> 0 < L ->
  planeplanePressure quad p T L s = Val (primed_sum (if s then 0 else / 2) (fun k => - press_term L k / PI) 1e-20 T (Z.to_nat (trunc (20 / (T * L))))) /\
  raw_pressure quad p T L s = Val (primed_sum (if s then 0 else / 2) (fun k => - press_term L k / PI) 1e-20 T (Z.to_nat (trunc (100 / (T * L))))) /\
  forall v, planeplanePressure quad p T L s = Val v \/ raw_pressure quad p T L s = Val v -> Rabs (v + PI ^ 3 / (240 * L ^ 4)) <= (T * zeta3 / (4 * L ^ 3) + 222 * exp (-40) / L ^ 4) / PI.
Proof.
  intros T L s HT HL. pose proof PI_RGT_0. assert (TL : 0 < T * L) by now apply Rmult_lt_0_compat.
  assert (E : planeplanePressure quad p T L s = Val (primed_sum (if s then 0 else / 2) (fun k => - press_term L k / PI) 1e-20 T (Z.to_nat (trunc (20 / (T * L)))))).
  { apply C55_pressure; [lra|]. intros k Hk. assert (K : 0 < k) by (apply in_matsubaras with (3 := Hk); lra). rewrite (proj1 (C91_frequency k L K HL)), (vacuum_index e u Hv) by assumption. reflexivity. }
  assert (E2 : raw_pressure quad p T L s = Val (primed_sum (if s then 0 else / 2) (fun k => - press_term L k / PI) 1e-20 T (Z.to_nat (trunc (100 / (T * L)))))).
  { unfold raw_pressure. rewrite terms_val by lra. cbn [obind]. set (nm := trunc (100 / (T * L))) in *. set (I := fun k => - press_term L k / (2 * PI)).
    assert (A : forall f, (forall k, In k (matsubaras 1e-20 T nm) -> f k = Val (I k)) -> exists v, weighted f T (matsubaras 1e-20 T nm) s = Val v /\ asum v = primed_sum (if s then 0 else / 2) I 1e-20 T (Z.to_nat nm)).
    { intros f Hf. assert (P := primed_val f I 1e-20 T nm s Hf). destruct (weighted f T _ s) as [v| |]; cbn [obind] in P; try discriminate. exists v. split; [reflexivity|]. now injection P. }
    destruct (A (fun kn => kperp_integral quad (fun q => ofst (pressureRoundTrips p q kn L)) 0)) as [v [-> V1]]; [intros k Hk; assert (K : 0 < k) by (apply in_matsubaras with (3 := Hk); lra); rewrite (proj1 (proj2 (C91_frequency k L K HL))), (vacuum_index e u Hv) by assumption; reflexivity|].
    destruct (A (fun kn => kperp_integral quad (fun q => osnd (pressureRoundTrips p q kn L)) 0)) as [w [-> V2]]; [intros k Hk; assert (K : 0 < k) by (apply in_matsubaras with (3 := Hk); lra); rewrite (proj2 (proj2 (C91_frequency k L K HL))), (vacuum_index e u Hv) by assumption; reflexivity|].
    cbn [obind]. f_equal. rewrite V1, V2. unfold primed_sum. set (n := Z.to_nat nm). replace (sum_f_R0 (fun i => if Nat.eqb i 0 then 0 else - press_term L (INR i * T) / PI) n) with (2 * sum_f_R0 (fun i => if Nat.eqb i 0 then 0 else I (INR i * T)) n).
    - unfold I. set (S0 := sum_f_R0 _ n). set (w0 := if s then 0 else / 2). field. lra.
    - rewrite scal_sum. apply sum_eq. intros i _. destruct (Nat.eqb i 0); unfold I; field; lra. }
  split; [exact E|]. split; [exact E2|]. intros v [Hv'|Hv']; [rewrite E in Hv'|rewrite E2 in Hv']; injection Hv' as <-; apply pressure_sum; try assumption; try lra; destruct s; lra.
Qed.
(** at low temperature it is about half of Casimir's pressure -pi^3/(120 L^4), and never three quarters of it *)
Theorem C91_casimir_refuted : forall T L s v, 0 < T -> 0 < L -> T * L <= / 2 -> planeplanePressure quad p T L s = Val v \/ raw_pressure quad p T L s = Val v ->
  - (3 / 4) * (PI ^ 3 / (120 * L ^ 4)) < v < - (1 / 4) * (PI ^ 3 / (120 * L ^ 4)).
Proof.
  intros T L s v HT HL HTL Hv'. pose proof PI_RGT_0. assert (PB : 3 < PI) by (pose proof PI2_3_2; lra). destruct (C91_temperature T L s HT HL) as [_ [_ B]]. specialize (B v Hv'). assert (P4 : 0 < L ^ 4) by now apply pow_lt.
  assert (Z := zeta3_value). apply Rabs_le_between in Z. assert (Z' : 0 < zeta3 <= 1.21) by lra. clear Z. assert (E40 := exp_pos (-40)). assert (S40 := small40). set (x := exp (-40)) in *.
  assert (U : (T * zeta3 / (4 * L ^ 3) + 222 * x / L ^ 4) / PI <= 0.055 / L ^ 4).
  { replace ((T * zeta3 / (4 * L ^ 3) + 222 * x / L ^ 4) / PI) with ((T * L * zeta3 / 4 + 222 * x) * / PI * / L ^ 4) by (field; lra). unfold Rdiv at 2. apply Rmult_le_compat_r; [left; now apply Rinv_0_lt_compat|].
    assert (TL : T * L * zeta3 <= / 2 * 1.21) by (apply Rmult_le_compat; [apply Rmult_le_pos; lra|lra|lra|lra]). apply Rmult_le_reg_r with PI; [assumption|]. rewrite Rmult_assoc, Rinv_l by lra. lra. }
  assert (W : 0.055 / L ^ 4 < PI ^ 3 / (480 * L ^ 4)).
  { replace (PI ^ 3 / (480 * L ^ 4)) with (PI ^ 3 / 480 * / L ^ 4) by (field; lra). unfold Rdiv at 1. apply Rmult_lt_compat_r; [now apply Rinv_0_lt_compat|]. assert (3 ^ 3 < PI ^ 3) by (cbn [pow]; nra). lra. }
  apply Rabs_le_between in B. replace (- (3 / 4) * (PI ^ 3 / (120 * L ^ 4))) with (- (PI ^ 3 / (240 * L ^ 4)) - PI ^ 3 / (480 * L ^ 4)) by (field; lra). replace (- (1 / 4) * (PI ^ 3 / (120 * L ^ 4))) with (- (PI ^ 3 / (240 * L ^ 4)) + PI ^ 3 / (480 * L ^ 4)) by (field; lra). lra.
Qed.
End C91.
(** the series at frequency zero *)
Theorem C91_constants : forall L, 0 < L -> press_term L 0 = zeta3 / (4 * L ^ 3) /\ press_tail L 0 = PI ^ 4 / (240 * L ^ 4) /\ forall k, 0 < k -> is_derive (press_tail L) k (- press_term L k).
Proof. intros L HL. destruct (press_zero L HL). split; [assumption|]. split; [assumption|]. intros k Hk. now apply press_tail_derive. Qed.
Print Assumptions C91_frequency.
Print Assumptions C91_derivative_refuted.
Print Assumptions C91_temperature.
Print Assumptions C91_casimir_refuted.
Print Assumptions C91_constants.

(** ** not vacuous *)
Example C91_example : exists v, planeplanePressure the_integral pec_pec 0.1 1 false = Val v /\ - (3 / 4) * (PI ^ 3 / 120) < v < - (1 / 4) * (PI ^ 3 / 120).
Proof.
  destruct (C91_temperature _ the_integral_exact pec_pec _ _ vacuum_mirrors vacuum_one 0.1 1 false ltac:(lra) ltac:(lra)) as [E _]. eexists. split; [exact E|].
  assert (B := C91_casimir_refuted _ the_integral_exact pec_pec _ _ vacuum_mirrors vacuum_one 0.1 1 false _ ltac:(lra) ltac:(lra) ltac:(lra) (or_introl E)). replace (120 * 1 ^ 4) with 120 in B by ring. exact B.
Qed.
Example C91_raw_example : exists v, raw_pressure the_integral pec_pec 0.1 1 true = Val v /\ - (3 / 4) * (PI ^ 3 / 120) < v.
Proof.
  destruct (C91_temperature _ the_integral_exact pec_pec _ _ vacuum_mirrors vacuum_one 0.1 1 true ltac:(lra) ltac:(lra)) as [_ [E _]]. eexists. split; [exact E|].
  assert (B := C91_casimir_refuted _ the_integral_exact pec_pec _ _ vacuum_mirrors vacuum_one 0.1 1 true _ ltac:(lra) ltac:(lra) ltac:(lra) (or_intror E)). replace (120 * 1 ^ 4) with 120 in B by ring. apply B.
Qed.
