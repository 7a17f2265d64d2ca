(** * Signs and monotonicity of the interior coefficients *)
From Coq Require Import Reals.
From Coquelicot Require Import Coquelicot.
From Coq Require Import Bool ZArith List Lia Lra.
From Verif Require Import Base Help_Spec Bessel_Model Bessel_Spec Bessel_Proofs Bessel_Proofs2 Gaunt_Model Gaunt_Proofs Gaunt_Proofs7 Gaunt_Proofs8 Scat_Model Scat_Spec
  Trans_Model Trans_Spec Trans_Proofs Trans_Proofs3 Trans_Proofs4 Trans_Proofs6 Int_Proofs2.
From mathcomp Require ssrnat.
Import ListNotations.
Open Scope R_scope.

Section Forms.
Context (m : Z) (l1 l2 : nat) (g : list R) (Hg : gaunt (Z.of_nat l1) (Z.of_nat l2) m = Def g) (H1 : (1 <= l1)%nat) (H2 : (1 <= l2)%nat)
        (Hm : (Z.abs m <= Z.of_nat (Nat.min l1 l2))%Z).
Let par := (-1) ^ (l1 + l2).
Definition ifac : R := sqrt PI * Kn l1 l2 (Z.abs_nat m) / sqrt (llp1 l1 * llp1 l2).
Lemma ifac_pos : 0 < ifac.
Proof. generalize (Kn_pos l1 l2 (Z.abs_nat m)) (llp1_pos l1 H1) (llp1_pos l2 H2) PI_RGT_0. intros. unfold ifac. pos. Qed.
Lemma int_sum (w s : nat -> R) :
  closed (fun p b q => w p * common_ab false m l1 l2 p b q) s g l1 l2 = par * ifac * sum_f_R0 (fun p => w p * cprod l1 l2 (Z.abs_nat m) p * s p) (l1 + l2).
Proof.
  assert (PX := PI_RGT_0).
  transitivity (- (PI / 2) * par * closed (fun p b q => w p * common_ab true m l1 l2 p b q) s g l1 l2).
  { unfold closed. rewrite scal_sum. apply sum_eq. intros i Hi. unfold common_ab. rewrite lpp_parity by assumption. fold par. field. lra. }
  rewrite (ext_sum m l1 l2 g Hg H1 H2 Hm). unfold cfac, ifac.
  assert (P1 := llp1_pos l1 H1). assert (P2 := llp1_pos l2 H2). assert (PP : 0 < llp1 l1 * llp1 l2) by (apply Rmult_lt_0_compat; assumption).
  assert (S0 := sqrt_lt_R0 _ PP). field. lra.
Qed.
Lemma int_forms : exists P Q, grows P /\ grows Q /\ forall x, 0 < x ->
  closed (EE_ab false m l1 l2) (fun p => sph_i p x) g l1 l2 = par * P x /\
  closed (EM_ab false m l1 l2 x) (fun p => sph_i p x) g l1 l2 = par * (2 * IZR m) * (x * Q x).
Proof.
  set (n := Z.abs_nat m). assert (N1 : (n <= l1)%nat) by (unfold n; lia). assert (N2 : (n <= l2)%nat) by (unfold n; lia).
  destruct (@same_form_i l1 l2 n) as [P [FP EP]]; try (apply (ssrbool.introT ssrnat.leP); assumption).
  destruct (@mixed_form_i l1 l2 n) as [Q [FQ EQ]]; try (apply (ssrbool.introT ssrnat.leP); assumption).
  change (ssrnat.addn l1 l2) with (l1 + l2)%nat in EP, EQ.
  assert (C := ifac_pos). exists (fun x => ifac * P x), (fun x => ifac * Q x). split; [now apply grows_scal|]. split; [now apply grows_scal|].
  intros x Hx. split.
  - transitivity (closed (fun p b q => (llp1 l1 + llp1 l2 - llp1 p) * common_ab false m l1 l2 p b q) (fun p => sph_i p x) g l1 l2); [reflexivity|].
    rewrite int_sum. unfold llp1. fold n. rewrite (EP x Hx). ring.
  - transitivity (2 * IZR m * x * closed (fun p b q => 1 * common_ab false m l1 l2 p b q) (fun p => sph_i p x) g l1 l2).
    { unfold closed. rewrite scal_sum. apply sum_eq. intros i _. unfold EM_ab. ring. }
    rewrite int_sum. fold n.
    rewrite (sum_eq _ (fun p => cprod l1 l2 n p * sph_i p x)) by (intros; ring).
    rewrite (EQ x Hx). ring.
Qed.
End Forms.

(** ** the coefficients of the code with exact Bessel functions, as functions of the distance *)
Section Code.
Context (med : material) (e u : R -> R) (lmax lssmax l1 l2 : nat) (m : Z) (k : R).
Context (Hh : has med e u) (H1 : (1 <= l1 <= lmax)%nat) (H2 : (1 <= l2 <= lssmax)%nat) (Hm : (Z.abs m <= Z.of_nat (Nat.min l1 l2))%Z)
        (Hk : 0 < k) (He : 0 < e k).
Let x L := k * L * sqrt (e k).
Let V pick L := coefficient pick exact_trans lmax lssmax m med L false l1 l2 k.
Lemma int_code : exists P Q, grows P /\ grows Q /\ forall L, 0 < L ->
  V v_EEab L = (-1) ^ (l1 + l2) * P (x L) /\ V v_EEba L = P (x L) /\
  V v_EMab L = (-1) ^ (l1 + l2) * (2 * IZR m) * (x L * Q (x L)) /\ V v_EMba L = - (2 * IZR m) * (x L * Q (x L)).
Proof.
  destruct (gaunt_ok l1 l2 m Hm) as [g [a [Eg _]]]. destruct (int_forms m l1 l2 g Eg (proj1 H1) (proj1 H2) Hm) as [P [Q [FP [FQ E]]]].
  exists P, Q. split; [exact FP|]. split; [exact FQ|]. intros L HL. assert (X := arg_pos e k Hk He L HL). fold (x L) in X.
  destruct (coefficient_val exact_trans lmax lssmax m med L false l1 l2 k e u (fun l => ln (sph_i l (x L))) Hh Hk (proj2 H1) (proj2 H2)) as [g' [Eg' [_ C]]].
  { unfold exact_trans. fold (x L). rewrite Nat2Z.id. replace (lmax + lssmax + 2)%nat with (lmax + lssmax + 1 + 1)%nat by lia. reflexivity. }
  rewrite Eg in Eg'. injection Eg' as <-. cbv zeta in C. fold (x L) in C.
  assert (EX : forall F, closed F (fun p => exp (ln (sph_i p (x L)))) g l1 l2 = closed F (fun p => sph_i p (x L)) g l1 l2).
  { intros F. unfold closed. apply sum_eq. intros i _. rewrite exp_ln by now apply sph_i_pos. reflexivity. }
  rewrite !EX in C. destruct C as [C1 [C2 [C3 C4]]]. destruct (E (x L) X) as [E1 E2].
  assert (TT : (-1) ^ (l1 + l2) * (-1) ^ (l1 + l2) = 1). { rewrite <- pow_add. replace (l1 + l2 + (l1 + l2))%nat with (2 * (l1 + l2))%nat by lia. rewrite pow_mult. replace ((-1) ^ 2) with 1 by ring. apply pow1. }
  unfold V. rewrite C1, C2, C3, C4, closed_ba, closed_EMba, E1, E2. set (t := (-1) ^ (l1 + l2)) in *. repeat split.
  - transitivity (t * t * P (x L)); [ring|]. rewrite TT. ring.
  - transitivity (- (t * t) * (2 * IZR m) * (x L * Q (x L))); [ring|]. rewrite TT. ring.
Qed.
End Code.
