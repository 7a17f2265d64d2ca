(** * The rules of RT_Proofs7 for the coefficients of a configuration *)
From Coq Require Import Reals.
From Coquelicot Require Import Coquelicot.
From Coq Require Import Bool ZArith List Lia Lra.
From Verif Require Import Base Mat_Model Mat_Spec Help_Proofs Bessel_Model Bessel_Spec Scat_Model Scat_Spec Scat_Proofs Scat_Proofs2 Scat_Proofs6 Scat_Proofs9
  Trans_Model Trans_Spec Lin_Model RT_Model RT_Spec RT_Spec2 RT_Proofs2 RT_Proofs3 RT_Proofs7.
Import ListNotations.
Open Scope R_scope.

Lemma lmin_1 m : (1 <= lmin m)%nat.
Proof. unfold lmin. lia. Qed.
Lemma sgn2_shift a i s : sgn2 (a + i) (a + s) = (-1) ^ (i + s).
Proof.
  unfold sgn2. replace (a + i + (a + s))%nat with (2 * a + (i + s))%nat by lia. rewrite pow_add, pow_mult. replace ((-1) ^ 2) with 1 by ring. rewrite pow1. ring.
Qed.
Lemma rt_parity mieb c m k i s : V1 (rt_with mieb c m k) i s = (-1) ^ (i + s) * V0 (rt_with mieb c m k) i s /\ V3 (rt_with mieb c m k) i s = - ((-1) ^ (i + s) * V2 (rt_with mieb c m k) i s).
Proof.
  unfold rt_with. cbn [V0 V1 V2 V3]. rewrite <- (sgn2_shift (lmin m) i s). apply coef_parity.
Qed.
Lemma rt_exchange mieb c m k : c_ext c = true -> let e := rt_with mieb c m k in let e' := rt_with mieb (exchange c) m k in
  (forall i, aTE e' i = bTE e i /\ aTM e' i = bTM e i /\ bTE e' i = aTE e i /\ bTM e' i = aTM e i) /\ forall i s, V0 e' s i = V0 e i s /\ V2 e' s i = V2 e i s.
Proof.
  intros H e e'. unfold e, e', rt_with. cbn [aTE aTM bTE bTM V0 V2 c_lmax c_lssmax c_med c_L c_ext exchange].
  assert (EA : mieA mieb (exchange c) = mieB mieb c) by (unfold mieA, mieB, exchange; cbn [c_1 c_lmax c_med c_mat]; rewrite H; reflexivity).
  assert (EB : mieB mieb (exchange c) = mieA mieb c) by (unfold mieA, mieB, exchange; cbn [c_2 c_lssmax c_med c_mat c_ext]; rewrite H; reflexivity).
  rewrite EA, EB. split; [intros i; repeat split; reflexivity|]. intros i s. split; apply coef_sym.
Qed.
Lemma rt_negm mieb c m k e u p : has (c_med c) e u -> 0 < c_L c -> 0 < k -> (0 < m)%Z -> p = Z.to_nat (m - 1) -> let q := rt_with mieb c m k in let q' := rt_with mieb c (- m) k in
  (forall i, aTE q' (p + i) = aTE q i /\ aTM q' (p + i) = aTM q i /\ bTE q' (p + i) = bTE q i /\ bTM q' (p + i) = bTM q i) /\
  forall i s, (i < n1 c (- m))%nat -> (s < n2 c (- m))%nat ->
    let r (V : roundtrip -> nat -> nat -> R) (sg : R) := V q' i s = if Nat.leb p i && Nat.leb p s then sg * V q (i - p)%nat (s - p)%nat else 0 in
    r V0 1 /\ r V1 1 /\ r V2 (-1) /\ r V3 (-1).
Proof.
  intros Hh HL Hk Hm Hp q q'. assert (E1 : lmin (- m) = 1%nat) by (unfold lmin; lia). assert (E2 : lmin m = S p) by (unfold lmin; lia).
  unfold q, q', rt_with. cbn [aTE aTM bTE bTM V0 V1 V2 V3]. rewrite E1, E2. split.
  - intros i. replace (1 - 1 + (p + i))%nat with (S p - 1 + i)%nat by lia. repeat split; reflexivity.
  - intros i s Hi Hs. unfold n1, n2 in *. rewrite E1 in *.
    destruct (coef_neg (c_lmax c) (c_lssmax c) m (c_med c) e u (c_L c) (c_ext c) k Hh Hk HL (1 + i) (1 + s) ltac:(lia) ltac:(lia)) as [A [B [C D]]].
    cbv zeta. rewrite A, B, C, D. destruct (Nat.leb_spec p i), (Nat.leb_spec p s); cbn [andb].
    1: replace (S p + (i - p))%nat with (1 + i)%nat by lia; replace (S p + (s - p))%nat with (1 + s)%nat by lia; repeat split; ring.
    all: destruct (coef_zero (c_lmax c) (c_lssmax c) m (c_med c) e u (c_L c) (c_ext c) k Hh Hk HL (1 + i) (1 + s) ltac:(lia) ltac:(lia) ltac:(lia)) as [-> [-> [-> ->]]]; repeat split; ring.
Qed.

(** ** perfect reflectors *)
(** the sign (-1)^l for TE, the opposite one for TM *)
Definition signs (lmax : nat) (k : R) (F : list R -> out coefs) : Prop := forall j, (j < lmax)%nat ->
  exists p p', 0 < p /\ 0 < p' /\ entry TE F j k = (-1) ^ (j + 1) * p /\ entry TM F j k = - ((-1) ^ (j + 1) * p').
Lemma pec_ext_signs lmax r m e u k : has m e u -> 0 < r -> 0 < k -> signs lmax k (fun ks => mie mie_bessels ks 0 (Z.of_nat lmax) r PEC m).
Proof.
  intros Hh Hr Hk j Hj. unfold entry.
  destruct (actual_cells [k] 0 lmax r (only k Hk) ltac:(discriminate) (Nat.le_0_l _) Hr e u (proj1 (proj2 Hh))) as [iv [kv [B C]]].
  destruct (mie_pec_run mie_bessels [k] 0 (Z.of_nat lmax) r (only k Hk) m e u _ _ Hh B) as [w [-> H]].
  destruct (H j 0%nat ltac:(lia) ltac:(cbn; lia)) as [T1 [T2 T3]]. destruct (C j 0%nat ltac:(lia) ltac:(cbn; lia)) as [C1 [C2 C3]].
  specialize (C1 (tidy1 _ _ _)). cbn [nth] in *. rewrite C2 in T2. unfold TE, TM. rewrite T1, T2, T3.
  replace (0 + 1 + j)%nat with (j + 1)%nat in * by lia.
  set (x := exp _). assert (0 < x) by apply exp_pos. unfold sgn. pose proof PI_RGT_0. set (D := dI _ _ _ _) in *.
  assert (DK (0 + j) (k * r * refr e u k) < 0) by (generalize (DK_neg (0 + j) _ C3) (pos_INR (0 + j)); lra). set (Q := DK _ _) in *.
  exists (PI * 0.5 * x), (PI * 0.5 * (D / (- Q)) * x).
  assert (0 < PI * 0.5) by lra.
  assert (0 < D / (- Q)) by (apply Rdiv_lt_0_compat; lra).
  split; [now apply Rmult_lt_0_compat|]. split; [apply Rmult_lt_0_compat; [now apply Rmult_lt_0_compat|assumption]|]. split; [ring|field; lra].
Qed.
Lemma pec_int_signs lmax r m e u k : has m e u -> 0 < r -> 0 < k -> signs lmax k (fun ks => mie_internal mie_bessels ks 0 (Z.of_nat lmax) r m PEC).
Proof.
  intros Hh Hr Hk j Hj. unfold entry.
  destruct (actual_cells [k] 0 lmax r (only k Hk) ltac:(discriminate) (Nat.le_0_l _) Hr e u (proj1 (proj2 Hh))) as [iv [kv [B C]]].
  destruct (mie_pec_int_run mie_bessels [k] 0 (Z.of_nat lmax) r (only k Hk) m e u _ _ Hh B) as [w [-> H]].
  destruct (H j 0%nat ltac:(lia) ltac:(cbn; lia)) as [T1 [T2 T3]]. destruct (C j 0%nat ltac:(lia) ltac:(cbn; lia)) as [C1 [C2 C3]].
  specialize (C1 (tidy1 _ _ _)). cbn [nth] in *. rewrite C2 in T2. unfold TE, TM. rewrite T1, T2, T3.
  replace (0 + 1 + j)%nat with (j + 1)%nat in * by lia.
  set (x := exp _). assert (0 < x) by apply exp_pos. unfold sgn. pose proof PI_RGT_0. set (D := dI _ _ _ _) in *.
  assert (DK (0 + j) (k * r * refr e u k) < 0) by (generalize (DK_neg (0 + j) _ C3) (pos_INR (0 + j)); lra). set (Q := DK _ _) in *.
  exists (2 / PI * x), (2 / PI * ((- Q) / D) * x).
  assert (0 < 2 / PI) by (apply Rdiv_lt_0_compat; lra).
  assert (0 < - Q / D) by (apply Rdiv_lt_0_compat; lra).
  split; [now apply Rmult_lt_0_compat|]. split; [apply Rmult_lt_0_compat; [now apply Rmult_lt_0_compat|assumption]|]. split; [field; lra|field; lra].
Qed.
