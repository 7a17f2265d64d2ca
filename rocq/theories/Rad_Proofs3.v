(** * The coefficients of the wall of a cavity as functions of radius and material, for exact Bessel functions *)
From Coq Require Import Reals.
From Coquelicot Require Import Coquelicot.
From Coq Require Import Bool ZArith List Lia Lra.
From Verif Require Import Base Mat_Model Mat_Spec Help_Proofs Bessel_Model Bessel_Spec Bessel_Proofs Bessel_Proofs2 Scat_Model Scat_Spec Scat_Proofs Scat_Proofs2 Scat_Proofs3 Scat_Proofs4 Scat_Proofs9 Scat_Proofs11
  Trans_Model Trans_Spec Lin_Model RT_Model RT_Spec RT_Spec2 RT_Proofs10 Rad_Spec Rad_Proofs Rad_Proofs2.
Import ListNotations.
Open Scope R_scope.

Section Riccati.
  Context (l : nat).
  Let lam : R := (INR l + 1) * (INR l + 2).
  Definition QI (x : R) : R := sph_k (S l) x / sph_i (S l) x.
  Lemma QI_pos x : 0 < x -> 0 < QI x.
  Proof. intros Hx. apply Rdiv_lt_0_compat; [now apply sph_k_pos|now apply sph_i_pos]. Qed.
  Lemma QI_derive x : 0 < x -> is_derive QI x (QI x * (DK l x - DI l x) / x).
  Proof.
    intros Hx. assert (K := sph_k_pos (S l) x Hx). assert (I := sph_i_pos (S l) x Hx). unfold QI.
    eapply deq; [apply is_derive_div; [now apply sph_k_derive_down|now apply sph_i_derive_down|lra]|].
    rewrite DIE, DKE by assumption. rewrite S_INR. field. repeat split; lra.
  Qed.
  (** ** a wall with index c2/k, a filling with index c/k; p2 and p are the permeabilities (TE) or the permittivities (TM) *)
  Context (p2 p c2 c : R) (Hp2 : 0 < p2) (Hp : 0 < p) (Hc2 : 0 < c2) (Hc : 0 < c).
  Definition TI (r : R) : R := QI (c * r) * (p2 * DK l (c * r) - p * DK l (c2 * r)) / (p2 * DI l (c * r) - p * DK l (c2 * r)).
  Definition TIf (r : R) : R := QI (c * r) * (DI l (c * r) - DK l (c * r)) / (r * (p2 * DI l (c * r) - p * DK l (c2 * r)) ^ 2).
  Definition TId (r : R) : R := TIf r * (p2 * (p2 * (c * r) ^ 2 - p * (c2 * r) ^ 2) + lam * p2 * (p2 - p) + DK l (c2 * r) ^ 2 * p * (p2 - p)).
  Lemma TI_den r : 0 < r -> 0 < p2 * DI l (c * r) - p * DK l (c2 * r).
  Proof.
    intros Hr. assert (Hx : 0 < c * r) by (now apply Rmult_lt_0_compat). assert (Hy : 0 < c2 * r) by (now apply Rmult_lt_0_compat).
    assert (B := nDI l (c * r) Hx). assert (D := nDK l (c2 * r) Hy).
    assert (0 < p2 * DI l (c * r)) by (now apply Rmult_lt_0_compat). assert (0 < p * - DK l (c2 * r)) by (apply Rmult_lt_0_compat; lra). lra.
  Qed.
  Lemma TI_derive r : 0 < r -> is_derive TI r (TId r).
  Proof.
    intros Hr. assert (Hx : 0 < c * r) by (now apply Rmult_lt_0_compat). assert (Hy : 0 < c2 * r) by (now apply Rmult_lt_0_compat).
    assert (Da := scaled _ c2 r _ Hc2 (DK_riccati l _ Hy)). assert (Db := scaled _ c r _ Hc (DI_riccati l _ Hx)). assert (Dd := scaled _ c r _ Hc (DK_riccati l _ Hx)). assert (Dq := scaled _ c r _ Hc (QI_derive _ Hx)).
    assert (E := TI_den r Hr). unfold TI, TId, TIf.
    eapply deq; [apply is_derive_div; [apply dmult; [exact Dq|apply @is_derive_minus; apply is_derive_scal; [exact Dd|exact Da]]|apply @is_derive_minus; apply is_derive_scal; [exact Db|exact Da]|cbv beta; lra]|].
    cbv beta. unfold minus, plus, opp. simpl. set (a := DK l (c2 * r)) in *. set (b := DI l (c * r)) in *. set (d := DK l (c * r)) in *. set (q := QI (c * r)). fold lam.
    clearbody a b d q. clear Da Db Dd Dq. field. repeat split; lra.
  Qed.
  Lemma TI_front r : 0 < r -> 0 < TIf r.
  Proof.
    intros Hr. assert (Hx : 0 < c * r) by (now apply Rmult_lt_0_compat).
    assert (B := nDI l (c * r) Hx). assert (D := nDK l (c * r) Hx). assert (E := TI_den r Hr). unfold TIf.
    apply Rdiv_lt_0_compat; [apply Rmult_lt_0_compat; [now apply QI_pos|lra]|apply Rmult_lt_0_compat; [assumption|now apply pow_lt]].
  Qed.
  Lemma TI_incr : p <= p2 -> p * c2 ^ 2 <= p2 * c ^ 2 -> forall r r', 0 < r -> r <= r' -> TI r <= TI r'.
  Proof.
    intros H1 H2. apply (incr_pos_le TI TId TI_derive). intros r Hr. unfold TId. apply Rmult_le_pos; [left; now apply TI_front|]. assert (L : 0 < lam) by apply (lam_pos l).
    assert (0 <= p2 * (p2 * (c * r) ^ 2 - p * (c2 * r) ^ 2)).
    { apply Rmult_le_pos; [lra|]. replace (p2 * (c * r) ^ 2 - p * (c2 * r) ^ 2) with ((p2 * c ^ 2 - p * c2 ^ 2) * r ^ 2) by ring. apply Rmult_le_pos; [lra|apply pow2_ge_0]. }
    assert (0 <= lam * p2 * (p2 - p)) by (apply Rmult_le_pos; [apply Rmult_le_pos|]; lra).
    assert (0 <= DK l (c2 * r) ^ 2 * p * (p2 - p)) by (apply Rmult_le_pos; [apply Rmult_le_pos; [apply pow2_ge_0|]|]; lra). lra.
  Qed.
  Lemma TI_decr : p2 <= p -> p2 * c ^ 2 <= p * c2 ^ 2 -> forall r r', 0 < r -> r <= r' -> TI r' <= TI r.
  Proof.
    intros H1 H2 r r' Hr Hr'. apply Ropp_le_cancel. revert r r' Hr Hr'. apply (incr_pos_le (fun r => - TI r) (fun r => - TId r)); [intros r Hr; apply (is_derive_opp TI); now apply TI_derive|].
    intros r Hr. unfold TId. replace (- (_ * _)) with (TIf r * (p2 * (p * (c2 * r) ^ 2 - p2 * (c * r) ^ 2) + lam * p2 * (p - p2) + DK l (c2 * r) ^ 2 * p * (p - p2))) by ring.
    apply Rmult_le_pos; [left; now apply TI_front|]. assert (L : 0 < lam) by apply (lam_pos l).
    assert (0 <= p2 * (p * (c2 * r) ^ 2 - p2 * (c * r) ^ 2)).
    { apply Rmult_le_pos; [lra|]. replace (p * (c2 * r) ^ 2 - p2 * (c * r) ^ 2) with ((p * c2 ^ 2 - p2 * c ^ 2) * r ^ 2) by ring. apply Rmult_le_pos; [lra|apply pow2_ge_0]. }
    assert (0 <= lam * p2 * (p - p2)) by (apply Rmult_le_pos; [apply Rmult_le_pos|]; lra).
    assert (0 <= DK l (c2 * r) ^ 2 * p * (p - p2)) by (apply Rmult_le_pos; [apply Rmult_le_pos; [apply pow2_ge_0|]|]; lra). lra.
  Qed.
  (** ** a perfectly reflecting wall *)
  Lemma QI_decr r r' : 0 < r -> r < r' -> QI r' < QI r.
  Proof.
    intros Hr Hr'. apply Ropp_lt_cancel. revert r r' Hr Hr'. apply (incr_pos (fun x => - QI x) (fun x => - (QI x * (DK l x - DI l x) / x))); [intros x Hx; apply (is_derive_opp QI); now apply QI_derive|].
    intros x Hx. assert (A := nDI l x Hx). assert (B := nDK l x Hx). replace (- (_ / x)) with (QI x * (DI l x - DK l x) / x) by (field; lra).
    apply Rdiv_lt_0_compat; [|assumption]. apply Rmult_lt_0_compat; [now apply QI_pos|lra].
  Qed.
  Definition PJ (x : R) : R := QI x * - DK l x / DI l x.
  Lemma PJ_pos x : 0 < x -> 0 < PJ x.
  Proof.
    intros Hx. assert (A := nDI l x Hx). assert (B := nDK l x Hx). apply Rdiv_lt_0_compat; [|assumption]. apply Rmult_lt_0_compat; [now apply QI_pos|lra].
  Qed.
  Lemma PJ_decr r r' : 0 < r -> r < r' -> PJ r' < PJ r.
  Proof.
    intros Hr Hr'. apply Ropp_lt_cancel. revert r r' Hr Hr'. apply (incr_pos (fun x => - PJ x) (fun x => QI x * (DI l x - DK l x) * (x ^ 2 + lam) / (x * DI l x ^ 2))).
    - intros x Hx. assert (B := nDI l x Hx). unfold PJ.
      eapply deq; [apply @is_derive_opp; apply is_derive_div; [apply dmult; [now apply QI_derive|apply @is_derive_opp; now apply DK_riccati]|now apply DI_riccati|lra]|].
      cbv beta. unfold opp. simpl. set (a := DI l x) in *. set (d := DK l x) in *. set (q := QI x). fold lam. clearbody a d q. field. lra.
    - intros x Hx. assert (A := nDI l x Hx). assert (B := nDK l x Hx). assert (L : 0 < lam) by apply (lam_pos l). assert (0 < x ^ 2) by (now apply pow_lt).
      apply Rdiv_lt_0_compat; [apply Rmult_lt_0_compat; [apply Rmult_lt_0_compat; [now apply QI_pos|lra]|lra]|].
      apply Rmult_lt_0_compat; [assumption|]. now apply pow_lt.
  Qed.
End Riccati.

Section Shrink.
  Context (lmax : nat) (m : material) (e u : R -> R) (Hm : has m e u) (k : R) (Hk : 0 < k).
  Definition walled (s : R) (pick : coefs -> nat -> nat -> R) (mat : material) (r : R) (j : nat) : R := s * (-1) ^ (j + 1) * entry pick (fun ks => mie_internal exact_bessels ks 0 (Z.of_nat lmax) r m mat) j k.
  Let c := refr e u k * k.
  Let hc : 0 < c.
  Proof. destruct Hm as [_ [P _]]. destruct (P k Hk). apply Rmult_lt_0_compat; [now apply refr_pos|assumption]. Qed.
  Lemma exp_QI j x : 0 < x -> exp (ln (sph_k (S j) x) - ln (sph_i (S j) x)) = QI j x.
  Proof. intros Hx. unfold QI. apply exp_ln_diff; [now apply sph_k_pos|now apply sph_i_pos]. Qed.
  Lemma walled_pec j r : 0 < r -> (j < lmax)%nat -> walled 1 TE PEC r j = 2 / PI * QI j (c * r) /\ - walled 1 TM PEC r j = 2 / PI * PJ j (c * r).
  Proof.
    intros Hr Hj. assert (Hx : 0 < c * r) by (now apply Rmult_lt_0_compat). unfold walled. destruct (entry_pec_int 0 lmax r Hr (Nat.le_0_l _) m e u j k Hm ltac:(lia) Hk) as [-> ->]. rewrite sgnE. cbn [Nat.add].
    unfold pec_scale_int. fold c. rewrite exp_QI by assumption. unfold PJ. assert (D := nDI j (c * r) Hx). generalize PI_RGT_0. intros HP.
    split.
    - transitivity (((-1) ^ (j + 1) * (-1) ^ (j + 1)) * (2 / PI * QI j (c * r))); [field; lra|]. rewrite m1_sq. ring.
    - transitivity (((-1) ^ (j + 1) * (-1) ^ (j + 1)) * (2 / PI * (QI j (c * r) * - DK j (c * r) / DI j (c * r)))); [field; lra|]. rewrite m1_sq. ring.
  Qed.
  Lemma walled_solid s mat e2 u2 j r : has mat e2 u2 -> 0 < r -> (j < lmax)%nat ->
    walled s TE mat r j = 2 / PI * (s * TI j (u2 k) (u k) (refr e2 u2 k * k) c r) /\ - walled s TM mat r j = 2 / PI * (- s * TI j (e2 k) (e k) (refr e2 u2 k * k) c r).
  Proof.
    intros H1 Hr Hj. assert (Hx : 0 < c * r) by (now apply Rmult_lt_0_compat). unfold walled.
    destruct (entry_int 0 lmax r Hr (Nat.le_0_l _) m mat e u e2 u2 j k Hm H1 ltac:(lia) Hk) as [-> ->]. cbn [Nat.add]. unfold int_val. rewrite sgnE. fold c. rewrite exp_QI by assumption.
    unfold TI, ratio_int. split.
    - match goal with |- s * _ * (?A / ?B * _ * ?C) = _ => transitivity (((-1) ^ (j + 1) * (-1) ^ (j + 1)) * (2 / PI * (s * (C * A / B)))) end; [unfold Rdiv; ring|]. rewrite m1_sq. ring.
    - match goal with |- - (s * _ * (?A / ?B * _ * ?C)) = _ => transitivity (((-1) ^ (j + 1) * (-1) ^ (j + 1)) * (2 / PI * (- s * (C * A / B)))) end; [unfold Rdiv; ring|]. rewrite m1_sq. ring.
  Qed.
  Lemma two_PI_le a b : a <= b -> 2 / PI * a <= 2 / PI * b.
  Proof. intros H. apply Rmult_le_compat_l; [left; apply Rdiv_lt_0_compat; [lra|apply PI_RGT_0]|assumption]. Qed.

  (** ** a narrower cavity in the same material *)
  Lemma narrower s mat r r' j : contrast s mat e u k -> 0 < r -> r <= r' -> (j < lmax)%nat -> walled s TE mat r' j <= walled s TE mat r j /\ - walled s TM mat r' j <= - walled s TM mat r j.
  Proof.
    intros H Hr Hr' Hj. assert (Pr' : 0 < r') by lra. destruct H as [[-> ->]|[e1 [u1 [H1 H]]]].
    - destruct (walled_pec j r Hr Hj) as [-> ->]. destruct (walled_pec j r' Pr' Hj) as [-> ->]. destruct Hr' as [Hr'| ->]; [|lra].
      assert (0 < c * r) by (now apply Rmult_lt_0_compat). assert (c * r < c * r') by (now apply Rmult_lt_compat_l).
      split; apply two_PI_le; left; [now apply QI_decr|now apply PJ_decr].
    - destruct (walled_solid s mat e1 u1 j r H1 Hr Hj) as [-> ->]. destruct (walled_solid s mat e1 u1 j r' H1 Pr' Hj) as [-> ->].
      destruct H1 as [_ [P1 _]]. destruct (P1 k Hk) as [Pe1 Pu1]. destruct Hm as [_ [P _]]. destruct (P k Hk) as [Pe Pu].
      assert (Hc1 : 0 < refr e1 u1 k * k) by (apply Rmult_lt_0_compat; [now apply refr_pos|assumption]).
      assert (S1 := c_sq k e1 u1 Pe1 Pu1). assert (S2 : c ^ 2 = e k * u k * k ^ 2) by (now apply c_sq). assert (K2 : 0 < k ^ 2) by (now apply pow_lt).
      destruct H as [[-> [D1 D2]]|[-> [D1 D2]]].
      + assert (HE : e k <= e1 k). { apply Rmult_le_reg_r with (u k); [assumption|]. apply Rle_trans with (1 := D2). apply Rmult_le_compat_l; lra. }
        split; apply two_PI_le.
        * rewrite !Rmult_1_l. apply TI_decr; try assumption. rewrite S1, S2.
          replace (u1 k * (e k * u k * k ^ 2)) with (u k * u1 k * k ^ 2 * e k) by ring. replace (u k * (e1 k * u1 k * k ^ 2)) with (u k * u1 k * k ^ 2 * e1 k) by ring.
          apply Rmult_le_compat_l; [|assumption]. apply Rmult_le_pos; [apply Rmult_le_pos|]; lra.
        * assert (TI j (e1 k) (e k) (refr e1 u1 k * k) c r <= TI j (e1 k) (e k) (refr e1 u1 k * k) c r'); [|lra]. apply TI_incr; try assumption.
          rewrite S1, S2. replace (e k * (e1 k * u1 k * k ^ 2)) with (e k * e1 k * k ^ 2 * u1 k) by ring. replace (e1 k * (e k * u k * k ^ 2)) with (e k * e1 k * k ^ 2 * u k) by ring.
          apply Rmult_le_compat_l; [|assumption]. apply Rmult_le_pos; [apply Rmult_le_pos|]; lra.
      + assert (HE : e1 k <= e k). { apply Rmult_le_reg_r with (u1 k); [assumption|]. apply Rle_trans with (1 := D2). apply Rmult_le_compat_l; lra. }
        split; apply two_PI_le.
        * assert (TI j (u1 k) (u k) (refr e1 u1 k * k) c r <= TI j (u1 k) (u k) (refr e1 u1 k * k) c r'); [|lra]. apply TI_incr; try assumption.
          rewrite S1, S2. replace (u k * (e1 k * u1 k * k ^ 2)) with (u k * u1 k * k ^ 2 * e1 k) by ring. replace (u1 k * (e k * u k * k ^ 2)) with (u k * u1 k * k ^ 2 * e k) by ring.
          apply Rmult_le_compat_l; [|assumption]. apply Rmult_le_pos; [apply Rmult_le_pos|]; lra.
        * assert (TI j (e1 k) (e k) (refr e1 u1 k * k) c r' <= TI j (e1 k) (e k) (refr e1 u1 k * k) c r); [|lra]. apply TI_decr; try assumption.
          rewrite S1, S2. replace (e k * (e1 k * u1 k * k ^ 2)) with (e k * e1 k * k ^ 2 * u1 k) by ring. replace (e1 k * (e k * u k * k ^ 2)) with (e k * e1 k * k ^ 2 * u k) by ring.
          apply Rmult_le_compat_l; [|assumption]. apply Rmult_le_pos; [apply Rmult_le_pos|]; lra.
  Qed.
  (** ** another material around a cavity of the same radius *)
  Lemma TI_mobius l p2 p c2 c0 r : 0 < r -> 0 < p2 -> 0 < p -> 0 < c2 -> 0 < c0 -> TI l p2 p c2 c0 r = QI l (c0 * r) * (p * - DK l (c2 * r) - p2 * - DK l (c0 * r)) / (p * - DK l (c2 * r) - p2 * - DI l (c0 * r)).
  Proof. intros. unfold TI. f_equal; ring. Qed.
  Lemma denser_TI e1 u1 e2 u2 r j : 0 < e1 k -> 0 < u1 k -> 0 < e2 k -> 0 < u2 k -> 0 < e k -> 0 < u k -> 0 < r -> denser e2 u2 e1 u1 k ->
    TI j (u1 k) (u k) (refr e1 u1 k * k) c r <= TI j (u2 k) (u k) (refr e2 u2 k * k) c r /\ TI j (e2 k) (e k) (refr e2 u2 k * k) c r <= TI j (e1 k) (e k) (refr e1 u1 k * k) c r.
  Proof.
    intros A1 A2 B1 B2 C1 C2 Hr D. assert (Hx : 0 < c * r) by (now apply Rmult_lt_0_compat).
    assert (Hc1 : 0 < refr e1 u1 k * k) by (apply Rmult_lt_0_compat; [now apply refr_pos|assumption]). assert (Hc2 : 0 < refr e2 u2 k * k) by (apply Rmult_lt_0_compat; [now apply refr_pos|assumption]).
    assert (Hy : 0 < refr e1 u1 k * k * r) by (now apply Rmult_lt_0_compat). assert (Hy' : 0 < refr e2 u2 k * k * r) by (now apply Rmult_lt_0_compat).
    assert (Y2 := arg_sq r k e1 u1 A1 A2). assert (Y2' := arg_sq r k e2 u2 B1 B2).
    destruct (int_core j (refr e1 u1 k * k * r) (refr e2 u2 k * k * r) (e1 k) (u1 k) (e2 k) (u2 k)) as [E1 E2]; [split; [assumption|now apply denser_arg]|destruct D; lra|assumption|assumption|rewrite Y2, Y2'; ring|].
    assert (N1 := nDK j _ Hx). assert (N2 := nDK j _ Hy). assert (N3 := nDK j _ Hy'). assert (N4 := nDI j _ Hx). assert (N5 := QI_pos j _ Hx).
    rewrite !TI_mobius by assumption. split; apply mobius; try assumption; lra.
  Qed.
  Lemma denser_walled s mat mat' r j : contrast s mat e u k -> contrast s mat' e u k -> stronger s mat' mat k -> 0 < r -> (j < lmax)%nat ->
    walled s TE mat r j <= walled s TE mat' r j /\ - walled s TM mat r j <= - walled s TM mat' r j.
  Proof.
    intros H H' St Hr Hj. assert (Hx : 0 < c * r) by (now apply Rmult_lt_0_compat).
    assert (N := nDI j (c * r) Hx). assert (N' := nDK j (c * r) Hx). assert (HQ := QI_pos j (c * r) Hx).
    destruct (proj1 (proj2 Hm) k Hk) as [Pe Pu].
    destruct St as [->|[e1 [u1 [e2 [u2 [H1 [H2 D]]]]]]].
    - destruct H' as [[-> _]|[e2 [u2 [H2 _]]]]; [|now destruct (has_not_pec _ _ H2)].
      destruct H as [[_ ->]|[e1 [u1 [H1 _]]]]; [split; apply Rle_refl|].
      destruct (walled_pec j r Hr Hj) as [-> ->]. destruct (walled_solid 1 mat e1 u1 j r H1 Hr Hj) as [-> ->].
      destruct (proj1 (proj2 H1) k Hk) as [Pe1 Pu1].
      assert (Hc1 : 0 < refr e1 u1 k * k) by (apply Rmult_lt_0_compat; [now apply refr_pos|assumption]).
      assert (Hy : 0 < refr e1 u1 k * k * r) by (now apply Rmult_lt_0_compat).
      assert (Ny := nDK j _ Hy).
      split; apply two_PI_le.
      + rewrite Rmult_1_l, TI_mobius by assumption. apply mobius_1; lra.
      + replace (- (1) * TI j (e1 k) (e k) (refr e1 u1 k * k) c r) with (- TI j (e1 k) (e k) (refr e1 u1 k * k) c r) by ring. rewrite TI_mobius by assumption. unfold PJ.
        replace (DI j (c * r)) with (- - DI j (c * r)) at 2 by ring. apply mobius_1; lra.
    - destruct (walled_solid s mat e1 u1 j r H1 Hr Hj) as [-> ->]. destruct (walled_solid s mat' e2 u2 j r H2 Hr Hj) as [-> ->].
      destruct (proj1 (proj2 H1) k Hk) as [Pe1 Pu1]. destruct (proj1 (proj2 H2) k Hk) as [Pe2 Pu2].
      destruct D as [[-> D]|[-> D]].
      + destruct (denser_TI e1 u1 e2 u2 r j) as [E1 E2]; try assumption. split; apply two_PI_le; lra.
      + destruct (denser_TI e2 u2 e1 u1 r j) as [E1 E2]; try assumption. split; apply two_PI_le; lra.
  Qed.
  Lemma shrunk s mat mat' r r' j : contrast s mat e u k -> contrast s mat' e u k -> stronger s mat' mat k -> 0 < r' -> r' <= r -> (j < lmax)%nat ->
    walled s TE mat r j <= walled s TE mat' r' j /\ - walled s TM mat r j <= - walled s TM mat' r' j.
  Proof.
    intros H H' St Hr Hr' Hj. assert (0 < r) by lra. destruct (denser_walled s mat mat' r j H H' St ltac:(lra) Hj). destruct (narrower s mat' r' r j H' Hr Hr' Hj). split; lra.
  Qed.
  (** strictly, for perfect reflectors *)
  Lemma narrower_pec r r' j : 0 < r -> r < r' -> (j < lmax)%nat -> 0 < walled 1 TE PEC r' j < walled 1 TE PEC r j.
  Proof.
    intros Hr Hr' Hj. assert (Pr' : 0 < r') by lra. destruct (walled_pec j r Hr Hj) as [-> _]. destruct (walled_pec j r' Pr' Hj) as [-> _].
    assert (0 < c * r) by (now apply Rmult_lt_0_compat). assert (c * r < c * r') by (now apply Rmult_lt_compat_l).
    assert (0 < 2 / PI) by (apply Rdiv_lt_0_compat; [lra|apply PI_RGT_0]).
    split; [apply Rmult_lt_0_compat; [assumption|apply QI_pos; lra]|apply Rmult_lt_compat_l; [assumption|now apply QI_decr]].
  Qed.
End Shrink.
