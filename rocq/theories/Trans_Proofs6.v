(** * Signs and monotonicity of the exterior coefficients *)
From Coq Require Import Reals.
From Coquelicot Require Import Coquelicot.
From Coq Require Import Bool ZArith List Lia Lra.
From Verif Require Import Base Help_Spec Bessel_Model Bessel_Spec Bessel_Proofs Bessel_Proofs2 Gaunt_Model Gaunt_Proofs Gaunt_Proofs7 Gaunt_Proofs8 Scat_Model Scat_Spec
  Trans_Model Trans_Spec Trans_Proofs Trans_Proofs3 Trans_Proofs4 Lap_Proofs2.
From mathcomp Require ssrnat.
Import ListNotations.
Open Scope R_scope.

Lemma Kn_pos l lp m : 0 < Kn l lp m.
Proof. generalize (pos_INR l) (pos_INR lp) PI_RGT_0. intros. unfold Kn. pos; apply INR_fact_lt_0. Qed.
Lemma llp1_pos l : (1 <= l)%nat -> 0 < llp1 l.
Proof. intros H. unfold llp1. apply le_INR in H. cbn [INR] in H. nra. Qed.

Section Forms.
Context (m : Z) (l1 l2 : nat) (g : list R) (Hg : gaunt (Z.of_nat l1) (Z.of_nat l2) m = Def g) (H1 : (1 <= l1)%nat) (H2 : (1 <= l2)%nat)
        (Hm : (Z.abs m <= Z.of_nat (Nat.min l1 l2))%Z).
Definition cfac : R := sqrt PI * (2 / PI) * Kn l1 l2 (Z.abs_nat m) / sqrt (llp1 l1 * llp1 l2).
Lemma cfac_pos : 0 < cfac.
Proof. generalize (Kn_pos l1 l2 (Z.abs_nat m)) (llp1_pos l1 H1) (llp1_pos l2 H2) PI_RGT_0. intros. unfold cfac. pos. Qed.
Lemma ext_sum (w s : nat -> R) :
  closed (fun p b q => w p * common_ab true m l1 l2 p b q) s g l1 l2 = - cfac * sum_f_R0 (fun p => w p * cprod l1 l2 (Z.abs_nat m) p * s p) (l1 + l2).
Proof.
  unfold closed. rewrite <- (dmin_sum l1 l2). rewrite sum_sparse.
  - rewrite scal_sum. apply sum_eq. intros i Hi. rewrite lpps_nth by assumption. fold (dmin l1 l2). set (p := (dmin l1 l2 + 2 * i)%nat).
    assert (C := gaunt_coefs l1 l2 m g Hg Hm i Hi). fold p in C.
    assert (EP : INR p = INR (dmin l1 l2) + 2 * INR i) by (unfold p; rewrite plus_INR, mult_INR; cbn [INR]; ring).
    assert (P1 := llp1_pos l1 H1). assert (P2 := llp1_pos l2 H2).
    unfold common_ab, cfac. assert (PP : 0 < llp1 l1 * llp1 l2) by (apply Rmult_lt_0_compat; assumption).
    rewrite sqrt_div by (try assumption; generalize (pos_INR p); lra). rewrite <- EP in C.
    assert (S0 := sqrt_lt_R0 _ PP). assert (PI0 := PI_RGT_0). set (S := sqrt (llp1 l1 * llp1 l2)) in *. set (q := nth i g 0) in *. set (T := sqrt (2 * INR p + 1)) in *.
    set (K := Kn _ _ _) in *. set (cp := cprod _ _ _ _) in *. rewrite sgn_abs.
    assert (SS : (-1) ^ Z.abs_nat m * (-1) ^ Z.abs_nat m = 1) by (rewrite <- sgn_abs; apply sgnZ_sq). set (s1 := (-1) ^ Z.abs_nat m) in *.
    transitivity (w p * ((-1) ^ 1 * s1 * sqrt PI * s p * (q * T) / S * (2 / PI))); [field; lra|]. rewrite C.
    transitivity (- (s1 * s1) * (w p * (sqrt PI * s p * (K * cp) / S * (2 / PI)))); [field; lra|]. rewrite SS. field; lra.
  - intros p Hp. rewrite (c_low l1 l2 (Z.abs_nat m)) by lia. ring.
  - intros i Hi. rewrite (c_odd l1 l2 (Z.abs_nat m) ltac:(lia) ltac:(lia) (l1 + l2) (dmin l1 l2 + 2 * i + 1)); [ring|lia|lia|]. exists i; reflexivity.
Qed.
Lemma ext_forms : exists P Q, falls P /\ falls (fun x => x * Q x) /\ forall x, 0 < x ->
  closed (EE_ab true m l1 l2) (fun p => sph_k p x) g l1 l2 = sgnZ m * P x /\
  closed (EM_ab true m l1 l2 x) (fun p => sph_k p x) g l1 l2 = - (2 * IZR m * sgnZ m) * (x * Q x).
Proof.
  set (n := Z.abs_nat m). assert (N1 : (n <= l1)%nat) by (unfold n; lia). assert (N2 : (n <= l2)%nat) by (unfold n; lia).
  destruct (@same_form l1 l2 n) as [P [FP EP]]; try (apply (ssrbool.introT ssrnat.leP); assumption).
  destruct (@mixed_form l1 l2 n) as [Q [FQ EQ]]; try (apply (ssrbool.introT ssrnat.leP); assumption).
  change (ssrnat.addn l1 l2) with (l1 + l2)%nat in EP, EQ.
  assert (C := cfac_pos). exists (fun x => cfac * P x), (fun x => cfac * Q x). split; [now apply falls_scal|]. split.
  { apply (@falls_ext (fun x => cfac * (x * Q x))); [intros; ring|now apply falls_scal]. }
  intros x Hx. split.
  - transitivity (closed (fun p b q => (llp1 l1 + llp1 l2 - llp1 p) * common_ab true m l1 l2 p b q) (fun p => sph_k p x) g l1 l2); [reflexivity|].
    rewrite ext_sum. unfold llp1. fold n. rewrite (EP x Hx), sgn_abs. fold n. cbn [pow]. ring.
  - transitivity (2 * IZR m * x * closed (fun p b q => 1 * common_ab true m l1 l2 p b q) (fun p => sph_k p x) g l1 l2).
    { unfold closed. rewrite scal_sum. apply sum_eq. intros i _. unfold EM_ab. ring. }
    rewrite ext_sum. fold n.
    rewrite (sum_eq _ (fun p => cprod l1 l2 n p * sph_k p x)) by (intros; ring).
    rewrite (EQ x Hx), sgn_abs. fold n. ring.
Qed.
End Forms.

(** ** the coefficients of the code, as functions of the distance *)
Section Code.
Context (med : material) (e u : R -> R) (lmax lssmax l1 l2 : nat) (m : Z) (k : R).
Context (Hh : has med e u) (H1 : (1 <= l1 <= lmax)%nat) (H2 : (1 <= l2 <= lssmax)%nat) (Hm : (Z.abs m <= Z.of_nat (Nat.min l1 l2))%Z)
        (Hk : 0 < k) (He : 0 < e k).
Let x L := k * L * sqrt (e k).
Let V pick L := coefficient pick trans_bessels lmax lssmax m med L true l1 l2 k.
Lemma arg_pos L : 0 < L -> 0 < x L.
Proof. intros HL. unfold x. pos. Qed.
Lemma ext_code : exists P Q, falls P /\ falls (fun x => x * Q x) /\ forall L, 0 < L ->
  V v_EEab L = sgnZ m * P (x L) /\ V v_EEba L = (-1) ^ (l1 + l2) * V v_EEab L /\
  V v_EMab L = - (2 * IZR m * sgnZ m) * (x L * Q (x L)) /\ V v_EMba L = - (-1) ^ (l1 + l2) * V v_EMab L.
Proof.
  destruct (gaunt_ok l1 l2 m Hm) as [g [a [Eg _]]]. destruct (ext_forms m l1 l2 g Eg (proj1 H1) (proj1 H2) Hm) as [P [Q [FP [FQ E]]]].
  exists P, Q. split; [exact FP|]. split; [exact FQ|]. intros L HL. assert (X := arg_pos L HL).
  destruct (coefficient_val trans_bessels lmax lssmax m med L true l1 l2 k e u (fun l => ln (sph_k l (x L))) Hh Hk (proj2 H1) (proj2 H2)) as [g' [Eg' [_ C]]].
  { fold (x L). replace (lmax + lssmax + 2)%nat with (lmax + lssmax + 1 + 1)%nat by lia. now apply code_ext. }
  rewrite Eg in Eg'. injection Eg' as <-. cbv zeta in C. fold (x L) in C.
  assert (EX : forall F, closed F (fun p => exp (ln (sph_k p (x L)))) g l1 l2 = closed F (fun p => sph_k p (x L)) g l1 l2).
  { intros F. unfold closed. apply sum_eq. intros i _. rewrite exp_ln by now apply sph_k_pos. reflexivity. }
  rewrite !EX in C. destruct C as [C1 [C2 [C3 C4]]]. destruct (E (x L) X) as [E1 E2].
  unfold V. rewrite C1, C2, C3, C4, closed_ba, closed_EMba, E1, E2. repeat split; ring.
Qed.
End Code.
