(** * Property C74: signs and decay of the exterior translation coefficients *)
From Coq Require Import Reals.
From Coquelicot Require Import Coquelicot.
From Coq Require Import Bool ZArith List Lia Lra.
From Verif Require Import Base Mat_Model Mat_Spec Bessel_Model Bessel_Spec Scat_Model Scat_Spec Scat_Proofs Scat_Proofs2 Scat_Proofs7 Scat_Proofs9 Scat_Props2
  Trans_Model Trans_Spec Trans_Proofs3 Trans_Proofs4 Lap_Proofs2 Trans_Proofs6.
Import ListNotations.
Open Scope R_scope.

(** ** every coefficient has the sign of the static one, (-1)^m, and for m <> 0 the mixed one the sign of -m (-1)^m; none is zero (but the mixed
    ones for m = 0, C44).  The sums over lpp alternate in sign, so this is not seen term by term. *)
Theorem C74_signs : forall med e u lmax lssmax l1 l2 m k L, has med e u -> (1 <= l1 <= lmax)%nat -> (1 <= l2 <= lssmax)%nat ->
  (Z.abs m <= Z.of_nat (Nat.min l1 l2))%Z -> 0 < k -> 0 < e k -> 0 < L ->
  let V pick := coefficient pick trans_bessels lmax lssmax m med L true l1 l2 k in
  0 < (-1) ^ Z.abs_nat m * V v_EEab /\ 0 < (-1) ^ (Z.abs_nat m + l1 + l2) * V v_EEba /\
  (m <> 0%Z -> IZR m * ((-1) ^ Z.abs_nat m * V v_EMab) < 0 /\ 0 < IZR m * ((-1) ^ (Z.abs_nat m + l1 + l2) * V v_EMba)).
Proof.
  intros med e u lmax lssmax l1 l2 m k L Hh H1 H2 Hm Hk He HL V.
  destruct (ext_code med e u lmax lssmax l1 l2 m k Hh H1 H2 Hm Hk He) as [P [Q [[FP _] [[FQ _] E]]]].
  assert (X := arg_pos e k Hk He L HL). destruct (E L HL) as [E1 [E2 [E3 E4]]]. fold (V v_EEab) in E1, E2. fold (V v_EMab) in E3, E4. fold (V v_EEba) in E2. fold (V v_EMba) in E4.
  assert (PX := FP _ X). assert (QX := FQ _ X). set (p := P _) in *. set (q := _ * Q _) in *.
  assert (SS := sgnZ_sq m). rewrite sgn_abs in *. set (s := (-1) ^ Z.abs_nat m) in *.
  assert (TT : (-1) ^ (l1 + l2) * (-1) ^ (l1 + l2) = 1). { rewrite <- pow_add. replace (l1 + l2 + (l1 + l2))%nat with (2 * (l1 + l2))%nat by lia. rewrite pow_mult. replace ((-1) ^ 2) with 1 by ring. apply pow1. }
  replace (Z.abs_nat m + l1 + l2)%nat with (Z.abs_nat m + (l1 + l2))%nat by lia. rewrite pow_add. fold s. set (t := (-1) ^ (l1 + l2)) in *.
  repeat split.
  - rewrite E1, <- Rmult_assoc, SS. lra.
  - rewrite E2, E1. replace (s * t * (t * (s * p))) with ((s * s) * (t * t) * p) by ring. rewrite SS, TT. lra.
  - rewrite E3. replace (IZR m * (s * (- (2 * IZR m * s) * q))) with (- (2 * (s * s) * (IZR m * IZR m * q))) by ring. rewrite SS.
    assert (0 < IZR m * IZR m * q). { apply Rmult_lt_0_compat; [|exact QX]. apply Rsqr_pos_lt. now apply not_0_IZR. } lra.
  - rewrite E4, E3. replace (IZR m * (s * t * (- t * (- (2 * IZR m * s) * q)))) with (2 * (s * s) * (t * t) * (IZR m * IZR m * q)) by ring. rewrite SS, TT.
    assert (0 < IZR m * IZR m * q). { apply Rmult_lt_0_compat; [|exact QX]. apply Rsqr_pos_lt. now apply not_0_IZR. } lra.
Qed.
Print Assumptions C74_signs.

(** ** and gets strictly smaller when the spheres are moved apart *)
Theorem C74_decay : forall med e u lmax lssmax l1 l2 m k L L', has med e u -> (1 <= l1 <= lmax)%nat -> (1 <= l2 <= lssmax)%nat ->
  (Z.abs m <= Z.of_nat (Nat.min l1 l2))%Z -> 0 < k -> 0 < e k -> 0 < L < L' ->
  let V pick L := Rabs (coefficient pick trans_bessels lmax lssmax m med L true l1 l2 k) in
  V v_EEab L' < V v_EEab L /\ V v_EEba L' < V v_EEba L /\ (m <> 0%Z -> V v_EMab L' < V v_EMab L /\ V v_EMba L' < V v_EMba L).
Proof.
  intros med e u lmax lssmax l1 l2 m k L L' Hh H1 H2 Hm Hk He [HL HLL] V. assert (HL' : 0 < L') by lra.
  destruct (ext_code med e u lmax lssmax l1 l2 m k Hh H1 H2 Hm Hk He) as [P [Q [[FP DP] [[FQ DQ] E]]]].
  assert (X := arg_pos e k Hk He L HL). assert (X' := arg_pos e k Hk He L' HL').
  assert (XX : k * L * sqrt (e k) < k * L' * sqrt (e k)). { apply Rmult_lt_compat_r; [now apply sqrt_lt_R0|]. now apply Rmult_lt_compat_l. }
  assert (D1 := DP _ _ X XX). assert (D2 := DQ _ _ X XX). assert (F1 := FP _ X). assert (F2 := FP _ X'). assert (F3 := FQ _ X). assert (F4 := FQ _ X'). cbv beta in D2, F3, F4.
  assert (A1 : forall n, Rabs ((-1) ^ n) = 1). { intros n. apply pow_1_abs. }
  assert (A2 : Rabs (sgnZ m) = 1) by (rewrite sgn_abs; apply A1).
  assert (K1 : forall d, 0 < d -> V v_EEab d = Rabs (P (k * d * sqrt (e k))) /\ V v_EEba d = V v_EEab d).
  { intros d Hd. destruct (E d Hd) as [E1 [E2 _]]. unfold V. rewrite E2, E1, !Rabs_mult, A1, A2. split; ring. }
  assert (K2 : forall d, 0 < d -> V v_EMab d = 2 * Rabs (IZR m) * Rabs (k * d * sqrt (e k) * Q (k * d * sqrt (e k))) /\ V v_EMba d = V v_EMab d).
  { intros d Hd. destruct (E d Hd) as [_ [_ [E1 E2]]]. unfold V. rewrite E2, E1. set (q := _ * Q _). rewrite !Rabs_mult, !Rabs_Ropp, !Rabs_mult, A1, A2.
    rewrite (Rabs_right 2) by lra. split; ring. }
  destruct (K1 L HL) as [K11 K12]. destruct (K1 L' HL') as [K13 K14]. destruct (K2 L HL) as [K21 K22]. destruct (K2 L' HL') as [K23 K24].
  rewrite K12, K14, K22, K24, K11, K13, K21, K23. rewrite !(Rabs_right (P _)) by lra.
  set (a := k * L * _ * Q _) in *. set (b := k * L' * _ * Q _) in *. rewrite (Rabs_right a), (Rabs_right b) by lra.
  assert (M : m <> 0%Z -> 2 * Rabs (IZR m) * b < 2 * Rabs (IZR m) * a).
  { intros M0. assert (0 < Rabs (IZR m)) by (apply Rabs_pos_lt; now apply not_0_IZR). apply Rmult_lt_compat_l; lra. }
  repeat split; auto.
Qed.
Print Assumptions C74_decay.

(** ** Non-vacuity: two spheres in water *)
Example C74_water : let V L := coefficient v_EMab trans_bessels 3 4 1 (Lorentz e_Water None) L true 2 3 0.5 in 0 < V 2 /\ V 3 < V 2.
Proof.
  intros V. destruct (insulator_flags _ _ _ water_insulator) as [_ [_ [_ [_ Hh]]]].
  assert (He : 0 < eps_spec e_Water 0.5) by (destruct (insulator_flags _ _ _ water_insulator) as [_ [_ [_ [_ [_ [P _]]]]]]; apply P; lra).
  assert (S : forall L, 0 < L -> 0 < V L).
  { intros L HL. destruct (C74_signs _ _ _ 3 4 2 3 1 0.5 L Hh) as [_ [_ S]]; try lia; try lra. destruct (S ltac:(lia)) as [S1 _].
    fold (V L) in S1. change (Z.abs_nat 1) with 1%nat in S1. set (v := V L) in *. clearbody v. cbn [pow] in S1. lra. }
  split; [apply S; lra|]. destruct (C74_decay _ _ _ 3 4 2 3 1 0.5 2 3 Hh) as [_ [_ D]]; try lia; try lra.
  destruct (D ltac:(lia)) as [D1 _]. fold (V 2) (V 3) in D1. rewrite !Rabs_right in D1 by (left; apply S; lra). exact D1.
Qed.
