(** * Property C89 (PFA.py between perfect reflectors, with an exact quadrature) *)
From Coq Require Import Reals.
From Coquelicot Require Import Coquelicot.
From Coq Require Import Bool ZArith List Lia Lra Psatz Epsilon.
From Verif Require Import Base Mat_Model Mat_Spec Scat_Model Scat_Spec Scat_Proofs Scat_Proofs2 Scat_Props PFA_Model PFA_Spec PFA_Proofs PFA_Props PFA_Props2 Plate_Spec Zeta_Proofs Plate_Proofs Plate_Proofs2.
Import ListNotations.
Open Scope R_scope.

(** two perfect conductors in a medium with permittivity [e] and permeability [u] *)
Definition mirrors (p : pfa) (e u : R -> R) : Prop := p_mat1 p = PEC /\ p_mat2 p = PEC /\ has (p_md p) e u.
Lemma mirror_values p e u q k L : mirrors p e u -> 0 <= q -> 0 < k -> 0 < L ->
  let l := ln (1 - exp (- (2 * L * sqrt (q ^ 2 + (sqrt (e k * u k) * k) ^ 2)))) in roundTrips p q k L = Val (l, l) /\ roundTrip p q k L = Val (2 * l).
Proof.
  intros [H1 [H2 Hm]] Hq Hk HL l. destruct (has_pos _ e u k Hm Hk) as [E U]. assert (P : 0 < e k * u k) by now apply Rmult_lt_0_compat. destruct (C47_values p (fun _ _ => (-1, 1)) (fun _ _ => (-1, 1)) e u q k L) as [A B]; try assumption.
  - rewrite H1. apply pec_plate.
  - rewrite H2. apply pec_plate.
  - cbn [fst snd] in A, B. assert (X : ln_loop (-1) (-1) (kz (fun k => e k * u k) q k) L = l /\ ln_loop 1 1 (kz (fun k => e k * u k) q k) L = l).
    { unfold ln_loop, l, kz. rewrite Rpow_mult_distr, pow2_sqrt by lra. split; f_equal; replace (-2 * sqrt (q ^ 2 + e k * u k * k ^ 2) * L) with (- (2 * L * sqrt (q ^ 2 + e k * u k * k ^ 2))) by ring; ring. }
    destruct X as [X1 X2]. rewrite X1, X2 in A, B. split; [exact A|]. rewrite B. f_equal. ring.
Qed.
Lemma scal_integral (g : R -> R) c a v : is_RInt_gen g (at_point a) (Rbar_locally p_infty) v -> is_RInt_gen (fun x => c * g x) (at_point a) (Rbar_locally p_infty) (c * v).
Proof. intros H. apply (is_RInt_gen_scal (V := R_NormedModule) g c v H). Qed.
Lemma integral_ext (g h : R -> R) a v : (forall x, a <= x -> g x = h x) -> is_RInt_gen g (at_point a) (Rbar_locally p_infty) v -> is_RInt_gen h (at_point a) (Rbar_locally p_infty) v.
Proof.
  intros H. apply is_RInt_gen_ext. exists (fun x => x = a) (fun b => a < b); [reflexivity|now exists a|]. cbn. intros x b -> Hb y. rewrite Rmin_left, Rmax_right by lra. intros Hy. apply H. lra.
Qed.

(** ** the contribution of one frequency, in any medium *)
Section C89.
Context (quad : quadrature) (Hquad : exact_quad quad) (p : pfa) (e u : R -> R) (Hp : mirrors p e u).
Lemma index_pos k : 0 < k -> 0 < sqrt (e k * u k) * k.
Proof. intros Hk. destruct Hp as [_ [_ Hm]]. destruct (has_pos _ e u k Hm Hk). apply Rmult_lt_0_compat; [apply sqrt_lt_R0, Rmult_lt_0_compat|]; assumption. Qed.
Theorem C89_frequency : forall k L, 0 < k -> 0 < L ->
  kperp_integral quad (fun q => roundTrip p q k L) 0 = Val (- mirror_term L (sqrt (e k * u k) * k) / PI) /\
  kperp_integral quad (fun q => ofst (roundTrips p q k L)) 0 = Val (- mirror_term L (sqrt (e k * u k) * k) / (2 * PI)) /\
  kperp_integral quad (fun q => osnd (roundTrips p q k L)) 0 = Val (- mirror_term L (sqrt (e k * u k) * k) / (2 * PI)).
Proof.
  intros k L Hk HL. pose proof PI_RGT_0. assert (K := index_pos k Hk). set (K0 := sqrt (e k * u k) * k) in *. assert (I := frequency_integral L HL K0 K). unfold kperp_integral. split; [|split].
  - apply (Hquad _ (fun q => / PI * (q * ln (1 - exp (- (2 * L * sqrt (q ^ 2 + K0 ^ 2))))))).
    + intros q Hq. destruct (mirror_values p e u q k L Hp Hq Hk HL) as [_ ->]. cbn [obind]. fold K0. f_equal. field. lra.
    + replace (- mirror_term L K0 / PI) with (/ PI * - mirror_term L K0) by (field; lra). now apply scal_integral.
  - apply (Hquad _ (fun q => / (2 * PI) * (q * ln (1 - exp (- (2 * L * sqrt (q ^ 2 + K0 ^ 2))))))).
    + intros q Hq. destruct (mirror_values p e u q k L Hp Hq Hk HL) as [-> _]. cbn [obind ofst]. fold K0. f_equal. field. lra.
    + replace (- mirror_term L K0 / (2 * PI)) with (/ (2 * PI) * - mirror_term L K0) by (field; lra). now apply scal_integral.
  - apply (Hquad _ (fun q => / (2 * PI) * (q * ln (1 - exp (- (2 * L * sqrt (q ^ 2 + K0 ^ 2))))))).
    + intros q Hq. destruct (mirror_values p e u q k L Hp Hq Hk HL) as [-> _]. cbn [obind osnd]. fold K0. f_equal. field. lra.
    + replace (- mirror_term L K0 / (2 * PI)) with (/ (2 * PI) * - mirror_term L K0) by (field; lra). now apply scal_integral.
Qed.
(** high temperature: the value is -zeta(3)/(8 pi L^2), up to the replacement of zero by 1e-20 *)
Theorem C89_high_temperature : forall L, 0 < L -> exists v, planeplaneFreeEnergy quad p PInf L false = Val v /\
  - zeta3 / (8 * PI * L ^ 2) <= v <= - zeta3 / (8 * PI * L ^ 2) + sqrt (e 1e-20 * u 1e-20) * 1e-20 / (2 * PI * L).
Proof.
  intros L HL. pose proof PI_RGT_0. assert (k0 : 0 < 1e-20) by lra. destruct (C89_frequency 1e-20 L k0 HL) as [_ [A B]]. eexists. split; [exact (C55_high_temperature quad p L false _ _ A B)|].
  assert (K := index_pos _ k0). set (K0 := sqrt (e 1e-20 * u 1e-20) * 1e-20) in *. destruct (term_bounds L HL K0 (Rlt_le _ _ K)) as [[T0 T1] T2]. set (P := mirror_term L K0) in *. cbv iota. assert (IP : 0 < / (2 * PI)) by (apply Rinv_0_lt_compat; lra).
  replace ((- P / (2 * PI) + - P / (2 * PI)) / 2) with (/ (2 * PI) * - P) by (field; lra). replace (- zeta3 / (8 * PI * L ^ 2)) with (/ (2 * PI) * - (zeta3 / (4 * L ^ 2))) by (field; lra). replace (K0 / (2 * PI * L)) with (/ (2 * PI) * (K0 / L)) by (field; lra). rewrite <- Rmult_plus_distr_l. split; apply Rmult_le_compat_l; lra.
Qed.
(** ** in vacuum *)
Context (Hv : forall k, 0 < k -> e k * u k = 1).
Lemma vacuum_index k : 0 < k -> sqrt (e k * u k) * k = k.
Proof. intros Hk. rewrite Hv by assumption. rewrite sqrt_1. ring. Qed.
(** zero temperature: Casimir's energy -pi^3/(360 L^3), up to the replacement of zero by 1e-20 *)
Theorem C89_zero_temperature : forall L s, 0 < L -> exists v, planeplaneFreeEnergy quad p (Fin 0) L s = Val v /\ - PI ^ 3 / (360 * L ^ 3) <= v <= - PI ^ 3 / (360 * L ^ 3) + 1e-20 / (PI * L ^ 2).
Proof.
  intros L s HL. pose proof PI_RGT_0. assert (k0 : 0 < 1e-20) by lra. exists (/ PI * - mirror_tail L 1e-20). rewrite (proj1 (C55_zero_temperature quad p L s)). assert (IP : 0 < / PI) by now apply Rinv_0_lt_compat. split.
  - apply (Hquad _ (fun k => / PI * - mirror_term L k)); [|apply scal_integral, energy_integral; assumption]. intros k Hk. assert (K : 0 < k) by lra. rewrite (proj1 (C89_frequency k L K HL)), vacuum_index by assumption. f_equal. field. lra.
  - destruct (tail_bounds L HL 1e-20 (Rlt_le _ _ k0)) as [[T0 T1] T2]. set (Q := mirror_tail L 1e-20) in *. replace (- PI ^ 3 / (360 * L ^ 3)) with (/ PI * - (PI ^ 4 / (360 * L ^ 3))) by (field; lra). replace (1e-20 / (PI * L ^ 2)) with (/ PI * (1e-20 / L ^ 2)) by (field; lra). rewrite <- Rmult_plus_distr_l. split; apply Rmult_le_compat_l; lra.
Qed.
(** any temperature: the sum over frequencies, and its distance from Casimir's energy *)
Theorem C89_temperature : forall T L s, 0 < T -> 0 < L ->
  planeplaneFreeEnergy quad p (Fin T) L s = Val (primed_sum (if s then 0 else / 2) (fun k => - mirror_term L k / PI) 1e-10 T (Z.to_nat (trunc (20 / (T * L))))) /\
  forall v, planeplaneFreeEnergy quad p (Fin T) L s = Val v -> Rabs (v + PI ^ 3 / (360 * L ^ 3)) <= (T * zeta3 / (4 * L ^ 2) + 11 * exp (-40) / L ^ 3) / PI.
Proof.
  intros T L s HT HL. pose proof PI_RGT_0. assert (TL : 0 < T * L) by now apply Rmult_lt_0_compat.
  assert (E : planeplaneFreeEnergy quad p (Fin T) L s = Val (primed_sum (if s then 0 else / 2) (fun k => - mirror_term L k / PI) 1e-10 T (Z.to_nat (trunc (20 / (T * L)))))).
  { apply C55_free_energy; [lra|lra|]. intros k Hk. assert (K : 0 < k). { destruct Hk as [<-|Hin]; [lra|]. apply in_map_iff in Hin. destruct Hin as [i [<- Hi]]. apply in_seq in Hi. apply Rmult_lt_0_compat; [apply lt_0_INR; lia|assumption]. }
    rewrite (proj1 (C89_frequency k L K HL)), vacuum_index by assumption. reflexivity. }
  split; [exact E|]. intros v Hv'. rewrite E in Hv'. injection Hv' as <-. assert (M := matsubara_sum L HL T (if s then 0 else / 2) HT ltac:(destruct s; lra)). set (w := if s then 0 else / 2) in *. unfold primed_sum. set (n := Z.to_nat _) in *. set (S0 := sum_f_R0 (fun i => if Nat.eqb i 0 then 0 else mirror_term L (INR i * T)) n) in *.
  replace (sum_f_R0 (fun i => if Nat.eqb i 0 then 0 else - mirror_term L (INR i * T) / PI) n) with (- / PI * S0) by (unfold S0; rewrite scal_sum; apply sum_eq; intros i _; destruct (Nat.eqb i 0); field; lra).
  replace (T * (w * (- mirror_term L 1e-10 / PI) + - / PI * S0) + PI ^ 3 / (360 * L ^ 3)) with (- / PI * (T * (w * mirror_term L 1e-10 + S0) - PI ^ 4 / (360 * L ^ 3))) by (field; lra).
  rewrite Rabs_mult, Rabs_Ropp, Rabs_pos_eq by (left; now apply Rinv_0_lt_compat). set (B0 := T * zeta3 / (4 * L ^ 2) + 11 * exp (-40) / L ^ 3) in *. replace (B0 / PI) with (/ PI * B0) by (field; lra). apply Rmult_le_compat_l; [left; now apply Rinv_0_lt_compat|]. exact M.
Qed.
(** the force between spheres at zero temperature, outside and inside each other *)
Theorem C89_force : forall r1 r2 d s, 0 < r1 -> 0 < r2 ->
  (r1 + r2 < d -> exists v, spheresphereForce quad p r1 r2 (Fin 0) d s = Val v /\
     - PI ^ 4 * (r1 * r2 / (r1 + r2)) / (180 * (d - r1 - r2) ^ 3) <= v <= - PI ^ 4 * (r1 * r2 / (r1 + r2)) / (180 * (d - r1 - r2) ^ 3) + 2e-20 * (r1 * r2 / (r1 + r2)) / (d - r1 - r2) ^ 2) /\
  (0 <= d -> d + r1 < r2 -> exists v, spheresphereForce quad p r1 r2 (Fin 0) d s = Val v /\
     - PI ^ 4 * (r1 * r2 / (r2 - r1)) / (180 * (r2 - d - r1) ^ 3) <= v <= - PI ^ 4 * (r1 * r2 / (r2 - r1)) / (180 * (r2 - d - r1) ^ 3) + 2e-20 * (r1 * r2 / (r2 - r1)) / (r2 - d - r1) ^ 2).
Proof.
  intros r1 r2 d s H1 H2. pose proof PI_RGT_0. assert (H12 : 0 < r1 * r2) by now apply Rmult_lt_0_compat.
  assert (X : forall G g v, 0 < G -> 0 < g -> - PI ^ 3 / (360 * g ^ 3) <= v <= - PI ^ 3 / (360 * g ^ 3) + 1e-20 / (PI * g ^ 2) -> - PI ^ 4 * G / (180 * g ^ 3) <= 2 * PI * G * v <= - PI ^ 4 * G / (180 * g ^ 3) + 2e-20 * G / g ^ 2).
  { intros G g v HG Hg [A B]. assert (M : 0 < 2 * PI * G) by (apply Rmult_lt_0_compat; lra). replace (- PI ^ 4 * G / (180 * g ^ 3)) with (2 * PI * G * (- PI ^ 3 / (360 * g ^ 3))) by (field; lra). replace (2e-20 * G / g ^ 2) with (2 * PI * G * (1e-20 / (PI * g ^ 2))) by (field; lra). rewrite <- Rmult_plus_distr_l. split; apply Rmult_le_compat_l; lra. }
  split.
  - intros Hd. destruct (C89_zero_temperature (d - r1 - r2) false ltac:(lra)) as [v [E B]]. eexists. split; [exact (proj1 (C55_force quad p r1 r2 (Fin 0) d s v H1 H2) Hd E)|]. apply X; [apply Rdiv_lt_0_compat; lra|lra|exact B].
  - intros Hd0 Hd. destruct (C89_zero_temperature (r2 - d - r1) false ltac:(lra)) as [v [E B]]. eexists. split; [exact (proj2 (C55_force quad p r1 r2 (Fin 0) d s v H1 H2) ltac:(lra) ltac:(lra) E)|]. apply X; [apply Rdiv_lt_0_compat; lra|lra|exact B].
Qed.
End C89.
(** the series at frequency zero: zeta(3), to nine digits, and zeta(4) *)
Theorem C89_constants : forall L, 0 < L -> mirror_term L 0 = zeta3 / (4 * L ^ 2) /\ mirror_tail L 0 = PI ^ 4 / (360 * L ^ 3) /\ is_series (fun n => / INR (S n) ^ 4) (PI ^ 4 / 90) /\ Rabs (zeta3 - 1.202056903) <= 5e-9.
Proof. intros L HL. split; [now apply term_zero|]. split; [now apply tail_zero|]. split; [exact zeta4|exact zeta3_value]. Qed.
(** the three assertions of tests/test_pfa.py (assertAlmostEqual: seven places), with an exact quadrature *)
Lemma vacuum_mirrors : mirrors pec_pec (eps_spec []) (mu_val None).
Proof. split; [reflexivity|]. split; [reflexivity|]. exact vacuum_has. Qed.
Lemma vacuum_one k : 0 < k -> eps_spec [] k * mu_val None k = 1.
Proof. intros _. unfold eps_spec, mu_val. cbn. ring. Qed.
Theorem C89_unit_tests : forall quad, exact_quad quad ->
  distance 0.1 0.7 (0.1 + 0.7 + 0.19) 0 = Val 0.19 /\
  (exists v, planeplaneFreeEnergy quad pec_pec (Fin 0) 0.19 false = Val v /\ Rabs (- PI ^ 3 / (360 * 0.19 ^ 3) - v) <= 5e-8) /\
  (exists v, planeplaneFreeEnergy quad pec_pec PInf 0.19 false = Val v /\ Rabs (- 1.202056903 / (8 * PI * 0.19 ^ 2) - v) <= 5e-8).
Proof.
  intros quad Hq. pose proof PI_RGT_0. assert (P3 : 3 < PI) by (pose proof PI2_3_2; lra). split; [|split].
  - rewrite (proj1 (C46_gap 0.1 0.7 (0.1 + 0.7 + 0.19) ltac:(lra) ltac:(lra))) by lra. f_equal. lra.
  - destruct (C89_zero_temperature quad Hq pec_pec _ _ vacuum_mirrors vacuum_one 0.19 false ltac:(lra)) as [v [E B]]. exists v. split; [exact E|].
    assert (X : 1e-20 / (PI * 0.19 ^ 2) <= 1e-10). { apply Rmult_le_reg_r with (PI * 0.19 ^ 2); [apply Rmult_lt_0_compat; lra|]. unfold Rdiv. rewrite Rmult_assoc, Rinv_l by (apply Rgt_not_eq, Rmult_lt_0_compat; lra). lra. }
    apply Rabs_le. lra.
  - destruct (C89_high_temperature quad Hq pec_pec _ _ vacuum_mirrors 0.19 ltac:(lra)) as [v [E B]]. exists v. split; [exact E|]. rewrite vacuum_one, sqrt_1 in B by lra.
    assert (X : 1 * 1e-20 / (2 * PI * 0.19) <= 1e-10). { apply Rmult_le_reg_r with (2 * PI * 0.19); [lra|]. unfold Rdiv. rewrite Rmult_assoc, Rinv_l by lra. lra. }
    assert (Z := zeta3_value). apply Rabs_le_between in Z. assert (Y : Rabs (- 1.202056903 / (8 * PI * 0.19 ^ 2) - - zeta3 / (8 * PI * 0.19 ^ 2)) <= 1e-8).
    { assert (aux : forall a b c D, a = - c -> a / D - - b / D = (b - c) * / D) by (intros; subst; unfold Rdiv; ring). rewrite (aux _ _ 1.202056903) by lra. rewrite Rabs_mult, (Rabs_pos_eq (/ _)) by (left; apply Rinv_0_lt_compat; lra).
      apply Rmult_le_reg_r with (8 * PI * 0.19 ^ 2); [lra|]. rewrite Rmult_assoc, Rinv_l, Rmult_1_r by lra. apply Rle_trans with (1 := zeta3_value). lra. }
    apply Rabs_le_between in Y. apply Rabs_le. lra.
Qed.
Print Assumptions C89_frequency.
Print Assumptions C89_high_temperature.
Print Assumptions C89_zero_temperature.
Print Assumptions C89_temperature.
Print Assumptions C89_force.
Print Assumptions C89_constants.
Print Assumptions C89_unit_tests.

(** ** not vacuous: there is an exact quadrature, and the theorems apply to conductors in vacuum *)
Definition the_integral : quadrature := fun f a hi => match hi with
  | PInf => Epsilon.epsilon (inhabits Unmodelled) (fun r => exists g v, r = Val v /\ (forall x, a <= x -> f x = Val (g x)) /\ is_RInt_gen g (at_point a) (Rbar_locally p_infty) v)
  | _ => Unmodelled
  end.
Lemma the_integral_exact : exact_quad the_integral.
Proof.
  intros f g a v Hf Hg. unfold the_integral. set (Pr := fun r => exists g v, r = Val v /\ (forall x, a <= x -> f x = Val (g x)) /\ is_RInt_gen g (at_point a) (Rbar_locally p_infty) v). assert (Ex : exists r, Pr r) by (exists (Val v), g, v; auto).
  assert (S := Epsilon.epsilon_spec (inhabits Unmodelled) Pr Ex). destruct S as [g' [v' [E [Hf' Hg']]]]. rewrite E. f_equal.
  assert (G : is_RInt_gen g (at_point a) (Rbar_locally p_infty) v') by (apply (integral_ext g'); [intros x Hx; specialize (Hf x Hx); rewrite (Hf' x Hx) in Hf; now injection Hf|exact Hg']).
  assert (A := is_RInt_gen_unique g v Hg). assert (B := is_RInt_gen_unique g v' G). congruence.
Qed.
Example C89_casimir : exists v, planeplaneFreeEnergy the_integral pec_pec (Fin 0) 2 false = Val v /\ - PI ^ 3 / 2880 <= v <= - PI ^ 3 / 2880 + 1e-20.
Proof.
  pose proof PI2_3_2. destruct (C89_zero_temperature _ the_integral_exact pec_pec _ _ vacuum_mirrors vacuum_one 2 false ltac:(lra)) as [v [E B]]. exists v. split; [exact E|]. replace (360 * 2 ^ 3) with 2880 in B by ring.
  assert (1e-20 / (PI * 2 ^ 2) <= 1e-20). { apply Rmult_le_reg_r with (PI * 2 ^ 2); [lra|]. unfold Rdiv. rewrite Rmult_assoc, Rinv_l by lra. lra. } lra.
Qed.
Example C89_force_example : exists v, spheresphereForce the_integral pec_pec 1 3 (Fin 0) 6 false = Val v /\ v < 0.
Proof.
  destruct (C89_force _ the_integral_exact pec_pec _ _ vacuum_mirrors vacuum_one 1 3 6 false ltac:(lra) ltac:(lra)) as [X _]. destruct (X ltac:(lra)) as [v [E [_ B]]]. exists v. split; [exact E|]. pose proof PI2_3_2. assert (1 < PI ^ 4) by (apply Rlt_pow_R1; [lra|lia]). lra.
Qed.
Example C89_finite : exists v, planeplaneFreeEnergy the_integral pec_pec (Fin 0.01) 1 true = Val v /\ Rabs (v + PI ^ 3 / 360) <= 0.01.
Proof.
  destruct (C89_temperature _ the_integral_exact pec_pec _ _ vacuum_mirrors vacuum_one 0.01 1 true ltac:(lra) ltac:(lra)) as [E B]. eexists. split; [exact E|]. specialize (B _ E). replace (360 * 1 ^ 3) with 360 in B by ring. apply Rle_trans with (1 := B).
  assert (Z := zeta3_value). apply Rabs_le_between in Z. pose proof PI2_3_2. assert (X : exp (-40) <= 1e-4). { replace (-40) with (-20 + -20) by ring. rewrite exp_plus. assert (exp (-20) <= 1e-2); [|pose proof (exp_pos (-20)); nra].
    replace (-20) with (- (10) + - (10)) by ring. rewrite exp_plus. assert (exp (- (10)) <= 0.1); [|pose proof (exp_pos (- (10))); nra]. rewrite exp_Ropp. replace 0.1 with (/ 10) by lra. apply Rinv_le_contravar; [lra|]. assert (Y := exp_low 10). lra. }
  apply Rmult_le_reg_r with PI; [lra|]. unfold Rdiv at 1. rewrite Rmult_assoc, Rinv_l by lra. lra.
Qed.
