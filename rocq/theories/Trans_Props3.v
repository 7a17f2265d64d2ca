(** * Property C78: signs and growth of the interior translation coefficients *)
From Coq Require Import Reals.
From Coquelicot Require Import Coquelicot.
From Coq Require Import Bool ZArith List Lia Lra.
From Verif Require Import Base Mat_Model Mat_Spec Bessel_Model Bessel_Spec Scat_Model Scat_Spec Scat_Proofs Scat_Proofs2 Scat_Proofs7 Scat_Proofs9 Scat_Props2
  Trans_Model Trans_Spec Trans_Proofs3 Trans_Proofs4 Trans_Proofs6 Int_Proofs2 Trans_Proofs7.
Import ListNotations.
Open Scope R_scope.

(** ** one sphere inside the other, exact i_l: every coefficient of equal polarization has the sign (-1)^(l1+l2) in one direction and is positive in
    the other one, the mixed ones have in addition the sign of m resp. -m.  The sums over lpp have terms of both signs. *)
Theorem C78_signs : forall med e u lmax lssmax l1 l2 m k L, has med e u -> (1 <= l1 <= lmax)%nat -> (1 <= l2 <= lssmax)%nat ->
  (Z.abs m <= Z.of_nat (Nat.min l1 l2))%Z -> 0 < k -> 0 < L ->
  let V pick := coefficient pick exact_trans lmax lssmax m med L false l1 l2 k in
  0 < (-1) ^ (l1 + l2) * V v_EEab /\ 0 < V v_EEba /\
  (m <> 0%Z -> 0 < IZR m * ((-1) ^ (l1 + l2) * V v_EMab) /\ IZR m * V v_EMba < 0).
Proof.
  intros med e u lmax lssmax l1 l2 m k L Hh H1 H2 Hm Hk HL V. assert (He : 0 < e k) by (destruct Hh as [_ [P _]]; now apply P).
  destruct (int_code med e u lmax lssmax l1 l2 m k Hh H1 H2 Hm Hk He) as [P [Q [[FP _] [[FQ _] E]]]].
  assert (X := arg_pos e k Hk He L HL). destruct (E L HL) as [E1 [E2 [E3 E4]]]. fold (V v_EEab) in E1. fold (V v_EMab) in E3. fold (V v_EEba) in E2. fold (V v_EMba) in E4.
  assert (PX := FP _ X). assert (QX := FQ _ X). set (x := k * L * sqrt (e k)) in *. set (p := P x) in *. set (q := Q x) in *.
  assert (XQ : 0 < x * q) by now apply Rmult_lt_0_compat.
  assert (TT : (-1) ^ (l1 + l2) * (-1) ^ (l1 + l2) = 1). { rewrite <- pow_add. replace (l1 + l2 + (l1 + l2))%nat with (2 * (l1 + l2))%nat by lia. rewrite pow_mult. replace ((-1) ^ 2) with 1 by ring. apply pow1. }
  set (t := (-1) ^ (l1 + l2)) in *. rewrite E1, E2, E3, E4.
  assert (MM : m <> 0%Z -> 0 < IZR m * IZR m * (x * q)). { intros M0. apply Rmult_lt_0_compat; [|exact XQ]. apply Rsqr_pos_lt. now apply not_0_IZR. }
  repeat split.
  - rewrite <- Rmult_assoc, TT. lra.
  - exact PX.
  - replace (IZR m * (t * (t * (2 * IZR m) * (x * q)))) with (2 * (t * t) * (IZR m * IZR m * (x * q))) by ring. rewrite TT. specialize (MM H). lra.
  - replace (IZR m * (- (2 * IZR m) * (x * q))) with (- (2 * (IZR m * IZR m * (x * q)))) by ring. specialize (MM H). lra.
Qed.
Print Assumptions C78_signs.

(** ** and gets strictly larger when the inner sphere is moved away from the centre *)
Theorem C78_growth : forall med e u lmax lssmax l1 l2 m k L L', has med e u -> (1 <= l1 <= lmax)%nat -> (1 <= l2 <= lssmax)%nat ->
  (Z.abs m <= Z.of_nat (Nat.min l1 l2))%Z -> 0 < k -> 0 < L < L' ->
  let V pick L := Rabs (coefficient pick exact_trans lmax lssmax m med L false l1 l2 k) in
  V v_EEab L < V v_EEab L' /\ V v_EEba L < V v_EEba L' /\ (m <> 0%Z -> V v_EMab L < V v_EMab L' /\ V v_EMba L < V v_EMba L').
Proof.
  intros med e u lmax lssmax l1 l2 m k L L' Hh H1 H2 Hm Hk [HL HLL] V. assert (HL' : 0 < L') by lra. assert (He : 0 < e k) by (destruct Hh as [_ [P _]]; now apply P).
  destruct (int_code med e u lmax lssmax l1 l2 m k Hh H1 H2 Hm Hk He) as [P [Q [GP [GQ E]]]]. destruct GP as [FP DP]. destruct (grows_x GQ) as [FQ DQ].
  assert (X := arg_pos e k Hk He L HL). assert (X' := arg_pos e k Hk He L' HL').
  assert (XX : k * L * sqrt (e k) < k * L' * sqrt (e k)). { apply Rmult_lt_compat_r; [now apply sqrt_lt_R0|]. now apply Rmult_lt_compat_l. }
  assert (D1 := DP _ _ X XX). assert (D2 := DQ _ _ X XX). assert (F1 := FP _ X). assert (F2 := FP _ X'). assert (F3 := FQ _ X). assert (F4 := FQ _ X'). cbv beta in D2, F3, F4.
  assert (A1 : forall n, Rabs ((-1) ^ n) = 1). { intros n. apply pow_1_abs. }
  assert (K1 : forall d, 0 < d -> V v_EEab d = Rabs (P (k * d * sqrt (e k))) /\ V v_EEba d = Rabs (P (k * d * sqrt (e k)))).
  { intros d Hd. destruct (E d Hd) as [E1 [E2 _]]. unfold V. rewrite E2, E1, !Rabs_mult, A1. split; ring. }
  assert (K2 : forall d, 0 < d -> V v_EMab d = 2 * Rabs (IZR m) * Rabs (k * d * sqrt (e k) * Q (k * d * sqrt (e k))) /\ V v_EMba d = V v_EMab d).
  { intros d Hd. destruct (E d Hd) as [_ [_ [E1 E2]]]. unfold V. rewrite E2, E1. set (q := _ * Q _). rewrite !Rabs_mult, !Rabs_Ropp, !Rabs_mult, A1.
    rewrite (Rabs_right 2) by lra. split; ring. }
  destruct (K1 L HL) as [K11 K12]. destruct (K1 L' HL') as [K13 K14]. destruct (K2 L HL) as [K21 K22]. destruct (K2 L' HL') as [K23 K24].
  rewrite K12, K14, K22, K24, K11, K13, K21, K23. rewrite !(Rabs_right (P _)) by lra.
  set (a := k * L * _ * Q _) in *. set (b := k * L' * _ * Q _) in *. rewrite (Rabs_right a), (Rabs_right b) by lra.
  assert (M : m <> 0%Z -> 2 * Rabs (IZR m) * a < 2 * Rabs (IZR m) * b).
  { intros M0. assert (0 < Rabs (IZR m)) by (apply Rabs_pos_lt; now apply not_0_IZR). apply Rmult_lt_compat_l; lra. }
  repeat split; auto.
Qed.
Print Assumptions C78_growth.

(** ** Non-vacuity: a sphere in a water-filled cavity *)
Example C78_water : let V L := coefficient v_EMab exact_trans 3 4 1 (Lorentz e_Water None) L false 2 3 0.5 in V 2 < 0 /\ V 3 < V 2.
Proof.
  intros V. destruct (insulator_flags _ _ _ water_insulator) as [_ [_ [_ [_ Hh]]]].
  assert (S : forall L, 0 < L -> V L < 0).
  { intros L HL. destruct (C78_signs _ _ _ 3 4 2 3 1 0.5 L Hh) as [_ [_ S]]; try lia; try lra. destruct (S ltac:(lia)) as [S1 _].
    fold (V L) in S1. set (v := V L) in *. clearbody v. cbn [pow Nat.add] in S1. lra. }
  split; [apply S; lra|]. destruct (C78_growth _ _ _ 3 4 2 3 1 0.5 2 3 Hh) as [_ [_ D]]; try lia; try lra.
  destruct (D ltac:(lia)) as [D1 _]. fold (V 2) (V 3) in D1. rewrite !Rabs_left in D1 by (apply S; lra). lra.
Qed.
