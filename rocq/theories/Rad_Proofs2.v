(** * The Mie coefficients as functions of radius and material: the entries of the model *)
From Coq Require Import Reals.
From Coquelicot Require Import Coquelicot.
From Coq Require Import Bool ZArith List Lia Lra.
From Verif Require Import Base Mat_Model Mat_Spec Help_Proofs Bessel_Model Bessel_Spec Bessel_Proofs Bessel_Proofs2 Scat_Model Scat_Spec Scat_Proofs Scat_Proofs2 Scat_Proofs3 Scat_Proofs4 Scat_Proofs9 Scat_Proofs11
  Trans_Model Trans_Spec Lin_Model RT_Model RT_Spec RT_Spec2 RT_Proofs10 Rad_Spec Rad_Proofs.
Import ListNotations.
Open Scope R_scope.

Lemma has_not_pec e u : has PEC e u -> False.
Proof. intros [_ [_ H]]. discriminate. Qed.
Lemma mobius q p a a' p1 p1' b d : 0 < q -> 0 < p -> 0 < a -> 0 < a' -> 0 < p1 -> 0 < p1' -> 0 < b -> d < 0 -> p1' * a <= p1 * a' ->
  q * (p * a - p1 * b) / (p * a - p1 * d) <= q * (p * a' - p1' * b) / (p * a' - p1' * d).
Proof.
  intros Hq Hp Ha Ha' H1 H1' Hb Hd H.
  assert (D : 0 < p * a - p1 * d). { assert (0 < p * a) by (now apply Rmult_lt_0_compat). assert (0 < p1 * - d) by (apply Rmult_lt_0_compat; lra). lra. }
  assert (D' : 0 < p * a' - p1' * d). { assert (0 < p * a') by (now apply Rmult_lt_0_compat). assert (0 < p1' * - d) by (apply Rmult_lt_0_compat; lra). lra. }
  apply Rminus_le. replace (_ - _) with (- (q * p * (b - d) * (p1 * a' - p1' * a) / ((p * a - p1 * d) * (p * a' - p1' * d)))) by (field; lra).
  assert (0 <= q * p * (b - d) * (p1 * a' - p1' * a) / ((p * a - p1 * d) * (p * a' - p1' * d))); [|lra].
  apply frac_pos; [|now apply Rmult_lt_0_compat]. apply Rmult_le_pos; [|lra]. apply Rmult_le_pos; [apply Rmult_le_pos; lra|lra].
Qed.
Lemma mobius_1 q p a p1 b d : 0 < q -> 0 < p -> 0 < a -> 0 < p1 -> 0 < b -> d < 0 -> q * (p * a - p1 * b) / (p * a - p1 * d) <= q /\ - (q * (p * a - p1 * b) / (p * a - p1 * d)) <= q * b / - d.
Proof.
  intros Hq Hp Ha H1 Hb Hd.
  assert (D : 0 < p * a - p1 * d). { assert (0 < p * a) by (now apply Rmult_lt_0_compat). assert (0 < p1 * - d) by (apply Rmult_lt_0_compat; lra). lra. }
  split; apply Rminus_le.
  - replace (_ - _) with (- (q * p1 * (b - d) / (p * a - p1 * d))) by (field; lra).
    assert (0 <= q * p1 * (b - d) / (p * a - p1 * d)); [|lra]. apply frac_pos; [|assumption]. apply Rmult_le_pos; [apply Rmult_le_pos|]; lra.
  - replace (_ - _) with (- (q * p * a * (b - d) / ((p * a - p1 * d) * - d))) by (field; lra).
    assert (0 <= q * p * a * (b - d) / ((p * a - p1 * d) * - d)); [|lra]. apply frac_pos; [|apply Rmult_lt_0_compat; lra]. apply Rmult_le_pos; [apply Rmult_le_pos; [apply Rmult_le_pos|]|]; lra.
Qed.

Section Grow.
  Context (lmax : nat) (m : material) (e u : R -> R) (Hm : has m e u) (k : R) (Hk : 0 < k).
  Definition sized (s : R) (pick : coefs -> nat -> nat -> R) (mat : material) (r : R) (j : nat) : R := s * (-1) ^ (j + 1) * entry pick (fun ks => mie exact_bessels ks 0 (Z.of_nat lmax) r mat m) j k.
  Let c := refr e u k * k.
  Let hc : 0 < c.
  Proof. destruct Hm as [_ [P _]]. destruct (P k Hk). apply Rmult_lt_0_compat; [now apply refr_pos|assumption]. Qed.
  Lemma exp_QQ j x : 0 < x -> exp (ln (sph_i (S j) x) - ln (sph_k (S j) x)) = QQ j x.
  Proof. intros Hx. unfold QQ. apply exp_ln_diff; [now apply sph_i_pos|now apply sph_k_pos]. Qed.
  Lemma sized_pec j r : 0 < r -> (j < lmax)%nat -> sized 1 TE PEC r j = PI * 0.5 * QQ j (c * r) /\ - sized 1 TM PEC r j = PI * 0.5 * PP j (c * r).
  Proof.
    intros Hr Hj. assert (Hx : 0 < c * r) by (now apply Rmult_lt_0_compat). unfold sized. destruct (entry_pec 0 lmax r Hr (Nat.le_0_l _) m e u j k Hm ltac:(lia) Hk) as [-> ->]. rewrite sgnE. cbn [Nat.add].
    unfold pec_scale. fold c. rewrite exp_QQ by assumption. unfold PP. assert (D := nDK j (c * r) Hx).
    split.
    - transitivity (((-1) ^ (j + 1) * (-1) ^ (j + 1)) * (PI * 0.5 * QQ j (c * r))); [ring|]. rewrite m1_sq. ring.
    - transitivity (((-1) ^ (j + 1) * (-1) ^ (j + 1)) * (PI * 0.5 * (QQ j (c * r) * DI j (c * r) / - DK j (c * r)))); [field; lra|]. rewrite m1_sq. ring.
  Qed.
  Lemma sized_solid s mat e1 u1 j r : has mat e1 u1 -> 0 < r -> (j < lmax)%nat ->
    sized s TE mat r j = PI * 0.5 * (s * TT j (u1 k) (u k) (refr e1 u1 k * k) c r) /\ - sized s TM mat r j = PI * 0.5 * (- s * TT j (e1 k) (e k) (refr e1 u1 k * k) c r).
  Proof.
    intros H1 Hr Hj. assert (Hx : 0 < c * r) by (now apply Rmult_lt_0_compat). unfold sized.
    destruct (entry_ext 0 lmax r Hr (Nat.le_0_l _) mat m e1 u1 e u j k H1 Hm ltac:(lia) Hk) as [-> ->]. cbn [Nat.add]. unfold ext_val. rewrite sgnE. fold c. rewrite exp_QQ by assumption.
    unfold TT, ratio_ext. split.
    - match goal with |- s * _ * (?A / ?B * _ * ?C) = _ => transitivity (((-1) ^ (j + 1) * (-1) ^ (j + 1)) * (PI * 0.5 * (s * (C * A / B)))) end; [unfold Rdiv; ring|]. rewrite m1_sq. ring.
    - match goal with |- - (s * _ * (?A / ?B * _ * ?C)) = _ => transitivity (((-1) ^ (j + 1) * (-1) ^ (j + 1)) * (PI * 0.5 * (- s * (C * A / B)))) end; [unfold Rdiv; ring|]. rewrite m1_sq. ring.
  Qed.
  Lemma PI_le a b : a <= b -> PI * 0.5 * a <= PI * 0.5 * b.
  Proof. intros H. apply Rmult_le_compat_l; [generalize pi_half; lra|assumption]. Qed.
  Lemma c_sq e1 u1 : 0 < e1 k -> 0 < u1 k -> (refr e1 u1 k * k) ^ 2 = e1 k * u1 k * k ^ 2.
  Proof. intros A B. assert (H := arg_sq 1 k e1 u1 A B). rewrite !Rmult_1_r in H. exact H. Qed.

  (** ** a larger sphere of the same material *)
  Lemma larger s mat r r' j : contrast s mat e u k -> 0 < r -> r <= r' -> (j < lmax)%nat -> sized s TE mat r j <= sized s TE mat r' j /\ - sized s TM mat r j <= - sized s TM mat r' j.
  Proof.
    intros H Hr Hr' Hj. assert (Pr' : 0 < r') by lra. destruct H as [[-> ->]|[e1 [u1 [H1 H]]]].
    - destruct (sized_pec j r Hr Hj) as [-> ->]. destruct (sized_pec j r' Pr' Hj) as [-> ->]. destruct Hr' as [Hr'| ->]; [|lra].
      assert (0 < c * r) by (now apply Rmult_lt_0_compat). assert (c * r < c * r') by (now apply Rmult_lt_compat_l).
      split; apply PI_le; left; [now apply QQ_incr|now apply PP_incr].
    - destruct (sized_solid s mat e1 u1 j r H1 Hr Hj) as [-> ->]. destruct (sized_solid s mat e1 u1 j r' H1 Pr' Hj) as [-> ->].
      destruct H1 as [_ [P1 _]]. destruct (P1 k Hk) as [Pe1 Pu1]. destruct Hm as [_ [P _]]. destruct (P k Hk) as [Pe Pu].
      assert (Hc1 : 0 < refr e1 u1 k * k) by (apply Rmult_lt_0_compat; [now apply refr_pos|assumption]).
      assert (S1 := c_sq e1 u1 Pe1 Pu1). assert (S2 : c ^ 2 = e k * u k * k ^ 2) by (now apply c_sq). assert (K2 : 0 < k ^ 2) by (now apply pow_lt).
      destruct H as [[-> [D1 D2]]|[-> [D1 D2]]].
      + split; apply PI_le.
        * rewrite !Rmult_1_l. apply TT_incr; try assumption. rewrite S1, S2. apply Rmult_le_reg_r with (/ k ^ 2); [now apply Rinv_0_lt_compat|].
          replace (u1 k * (e k * u k * k ^ 2) * / k ^ 2) with (u1 k * (e k * u k)) by (field; lra). replace (u k * (e1 k * u1 k * k ^ 2) * / k ^ 2) with (u k * (e1 k * u1 k)) by (field; lra).
          apply Rmult_le_compat; [lra|apply Rmult_le_pos; lra|lra|lra].
        * assert (HE : e k <= e1 k). { apply Rmult_le_reg_r with (u k); [assumption|]. apply Rle_trans with (1 := D2). apply Rmult_le_compat_l; lra. }
          assert (TT j (e1 k) (e k) (refr e1 u1 k * k) c r' <= TT j (e1 k) (e k) (refr e1 u1 k * k) c r); [|lra]. apply TT_decr; try assumption.
          rewrite S1, S2. replace (e k * (e1 k * u1 k * k ^ 2)) with (e k * e1 k * k ^ 2 * u1 k) by ring. replace (e1 k * (e k * u k * k ^ 2)) with (e k * e1 k * k ^ 2 * u k) by ring.
          apply Rmult_le_compat_l; [|assumption]. apply Rmult_le_pos; [apply Rmult_le_pos|]; lra.
      + assert (HE : e1 k <= e k). { apply Rmult_le_reg_r with (u1 k); [assumption|]. apply Rle_trans with (1 := D2). apply Rmult_le_compat_l; lra. }
        split; apply PI_le.
        * assert (TT j (u1 k) (u k) (refr e1 u1 k * k) c r' <= TT j (u1 k) (u k) (refr e1 u1 k * k) c r); [|lra]. apply TT_decr; try assumption.
          rewrite S1, S2. replace (u k * (e1 k * u1 k * k ^ 2)) with (u k * u1 k * k ^ 2 * e1 k) by ring. replace (u1 k * (e k * u k * k ^ 2)) with (u k * u1 k * k ^ 2 * e k) by ring.
          apply Rmult_le_compat_l; [|assumption]. apply Rmult_le_pos; [apply Rmult_le_pos|]; lra.
        * assert (TT j (e1 k) (e k) (refr e1 u1 k * k) c r <= TT j (e1 k) (e k) (refr e1 u1 k * k) c r'); [|lra]. apply TT_incr; try assumption.
          rewrite S1, S2. replace (e k * (e1 k * u1 k * k ^ 2)) with (e k * e1 k * k ^ 2 * u1 k) by ring. replace (e1 k * (e k * u k * k ^ 2)) with (e k * e1 k * k ^ 2 * u k) by ring.
          apply Rmult_le_compat_l; [|assumption]. apply Rmult_le_pos; [apply Rmult_le_pos|]; lra.
  Qed.
  (** ** another material in a sphere of the same radius *)
  Lemma denser_arg e1 u1 e2 u2 r : 0 < r -> denser e2 u2 e1 u1 k -> refr e1 u1 k * k * r <= refr e2 u2 k * k * r.
  Proof. intros Hr [_ H]. now apply arg_le. Qed.
  Lemma denser_TT e1 u1 e2 u2 r j : 0 < e1 k -> 0 < u1 k -> 0 < e2 k -> 0 < u2 k -> 0 < e k -> 0 < u k -> 0 < r -> denser e2 u2 e1 u1 k ->
    TT j (u1 k) (u k) (refr e1 u1 k * k) c r <= TT j (u2 k) (u k) (refr e2 u2 k * k) c r /\ TT j (e2 k) (e k) (refr e2 u2 k * k) c r <= TT j (e1 k) (e k) (refr e1 u1 k * k) c r.
  Proof.
    intros A1 A2 B1 B2 C1 C2 Hr D. assert (Hx : 0 < c * r) by (now apply Rmult_lt_0_compat).
    assert (Hy : 0 < refr e1 u1 k * k * r) by (apply Rmult_lt_0_compat; [apply Rmult_lt_0_compat; [now apply refr_pos|assumption]|assumption]).
    assert (Hy' : 0 < refr e2 u2 k * k * r) by (apply Rmult_lt_0_compat; [apply Rmult_lt_0_compat; [now apply refr_pos|assumption]|assumption]).
    assert (Y2 := arg_sq r k e1 u1 A1 A2). assert (Y2' := arg_sq r k e2 u2 B1 B2).
    destruct (ext_core j (refr e2 u2 k * k * r) (refr e1 u1 k * k * r) (e2 k) (u2 k) (e1 k) (u1 k)) as [E1 E2]; [split; [assumption|now apply denser_arg]|destruct D; lra|assumption|assumption|rewrite Y2, Y2'; ring|].
    unfold TT. split; apply mobius; try assumption; try (now apply QQ_pos); try (now apply nDI); try (now apply nDK); lra.
  Qed.
  Lemma denser_sized s mat mat' r j : contrast s mat e u k -> contrast s mat' e u k -> stronger s mat' mat k -> 0 < r -> (j < lmax)%nat ->
    sized s TE mat r j <= sized s TE mat' r j /\ - sized s TM mat r j <= - sized s TM mat' r j.
  Proof.
    intros H H' St Hr Hj. assert (Hx : 0 < c * r) by (now apply Rmult_lt_0_compat).
    assert (N := nDI j (c * r) Hx). assert (N' := nDK j (c * r) Hx). assert (HQ := QQ_pos j (c * r) Hx).
    destruct (proj1 (proj2 Hm) k Hk) as [Pe Pu].
    destruct St as [->|[e1 [u1 [e2 [u2 [H1 [H2 D]]]]]]].
    - destruct H' as [[-> _]|[e2 [u2 [H2 _]]]]; [|now destruct (has_not_pec _ _ H2)].
      destruct H as [[_ ->]|[e1 [u1 [H1 _]]]]; [split; apply Rle_refl|].
      destruct (sized_pec j r Hr Hj) as [-> ->]. destruct (sized_solid 1 mat e1 u1 j r H1 Hr Hj) as [-> ->].
      destruct (proj1 (proj2 H1) k Hk) as [Pe1 Pu1].
      assert (Hy : 0 < refr e1 u1 k * k * r) by (apply Rmult_lt_0_compat; [apply Rmult_lt_0_compat; [now apply refr_pos|assumption]|assumption]).
      assert (Ny := nDI j _ Hy).
      split; apply PI_le.
      + rewrite Rmult_1_l. unfold TT. now apply mobius_1.
      + replace (- (1) * TT j (e1 k) (e k) (refr e1 u1 k * k) c r) with (- TT j (e1 k) (e k) (refr e1 u1 k * k) c r) by ring. unfold TT, PP. now apply mobius_1.
    - destruct (sized_solid s mat e1 u1 j r H1 Hr Hj) as [-> ->]. destruct (sized_solid s mat' e2 u2 j r H2 Hr Hj) as [-> ->].
      destruct (proj1 (proj2 H1) k Hk) as [Pe1 Pu1]. destruct (proj1 (proj2 H2) k Hk) as [Pe2 Pu2].
      destruct D as [[-> D]|[-> D]].
      + destruct (denser_TT e1 u1 e2 u2 r j) as [E1 E2]; try assumption. split; apply PI_le; lra.
      + destruct (denser_TT e2 u2 e1 u1 r j) as [E1 E2]; try assumption. split; apply PI_le; lra.
  Qed.
  Lemma grown s mat mat' r r' j : contrast s mat e u k -> contrast s mat' e u k -> stronger s mat' mat k -> 0 < r -> r <= r' -> (j < lmax)%nat ->
    sized s TE mat r j <= sized s TE mat' r' j /\ - sized s TM mat r j <= - sized s TM mat' r' j.
  Proof.
    intros H H' St Hr Hr' Hj. destruct (denser_sized s mat mat' r j H H' St Hr Hj). destruct (larger s mat' r r' j H' Hr Hr' Hj). split; lra.
  Qed.
  (** strictly, for perfect reflectors *)
  Lemma larger_pec r r' j : 0 < r -> r < r' -> (j < lmax)%nat -> 0 < sized 1 TE PEC r j < sized 1 TE PEC r' j.
  Proof.
    intros Hr Hr' Hj. assert (Pr' : 0 < r') by lra. destruct (sized_pec j r Hr Hj) as [-> _]. destruct (sized_pec j r' Pr' Hj) as [-> _].
    assert (0 < c * r) by (now apply Rmult_lt_0_compat). assert (c * r < c * r') by (now apply Rmult_lt_compat_l). generalize pi_half. intros.
    split; [apply Rmult_lt_0_compat; [assumption|now apply QQ_pos]|apply Rmult_lt_compat_l; [assumption|now apply QQ_incr]].
  Qed.
End Grow.
