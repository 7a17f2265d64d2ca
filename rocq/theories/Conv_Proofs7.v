(** * Far apart, the bound of the round trip is small *)
From Coq Require Import Reals Lra Lia ZArith.
From Verif Require Import Base Mat_Model Mat_Spec Scat_Spec Scat_Proofs Scat_Proofs4 Lin_Model RT_Model Conv_Spec.
Open Scope R_scope.

Lemma reach_far e u m k ra rb : 0 < e k -> 0 < u k -> 0 < k -> 0 < ra -> 0 < rb -> exists L0, 0 < L0 /\ forall L, L0 <= L -> rate 1 e u k ra rb L < 1 /\ 0 < reach 1 e u m k ra rb L < 1.
Proof.
  intros He Hu Hk Ha Hb. set (x1 := size e u k ra). set (x2 := size e u k rb).
  assert (P : 0 < refr e u k * k) by (apply Rmult_lt_0_compat; [now apply refr_pos|assumption]).
  assert (P1 : 0 < x1) by (now apply Rmult_lt_0_compat). assert (P2 : 0 < x2) by (now apply Rmult_lt_0_compat).
  set (C := 4 * (4 * 4 * (2 + x1) * (2 + x2) * exp (2 * (x1 + x2)) * x1 * x2)).
  assert (E := exp_pos (2 * (x1 + x2))). assert (CP : 0 < C) by (unfold C; apply Rmult_lt_0_compat; [lra|]; do 5 (apply Rmult_lt_0_compat; [|lra]); lra).
  assert (SP : 0 < k * sqrt (e k)) by (apply Rmult_lt_0_compat; [assumption|now apply sqrt_lt_R0]).
  set (X0 := (4 * C + 2) * (x1 + x2 + 1)). assert (X0P : 1 < X0) by (unfold X0; nra).
  exists (X0 / (k * sqrt (e k))). split; [apply Rdiv_lt_0_compat; lra|]. intros L HL.
  assert (HX : X0 <= way e k L).
  { unfold way. apply (Rmult_le_compat_r (k * sqrt (e k))) in HL; [|lra]. replace (k * L * sqrt (e k)) with (L * (k * sqrt (e k))) by ring.
    set (z := k * sqrt (e k)) in *. replace (X0 / z * z) with X0 in HL by (field; lra). exact HL. }
  set (x := way e k L) in *. assert (XP : 1 < x) by lra. assert (IX : 0 < / x) by (apply Rinv_0_lt_compat; lra).
  set (p := (x1 + x2) / (1 * x)). assert (p0 : 0 < p) by (unfold p; apply Rdiv_lt_0_compat; lra).
  assert (p1 : p * (4 * C + 2) < 1).
  { apply (Rmult_lt_reg_r x); [lra|]. replace (p * (4 * C + 2) * x) with ((4 * C + 2) * (x1 + x2)) by (unfold p; field; lra). unfold X0 in HX. nra. }
  assert (p2 : p < 1 / 2) by nra. set (q := rate 1 e u k ra rb L). assert (Q : q = p ^ 2) by reflexivity.
  assert (q1 : 0 < q < p / 2) by (rewrite Q; cbn [pow]; split; nra). split; [lra|].
  assert (QL : 0 < q ^ (2 * lmin m) <= q).
  { split; [apply pow_lt; lra|]. assert (1 <= lmin m)%nat by (unfold lmin; lia). replace (2 * lmin m)%nat with (S (2 * lmin m - 1)) by lia.
    cbn [pow]. assert (q ^ (2 * lmin m - 1) <= 1). { rewrite <- (pow1 (2 * lmin m - 1)). apply pow_incr. lra. } nra. }
  assert (D : 1 / 4 <= (1 - q) ^ 2 ) by (cbn [pow]; nra). assert (ID : 0 < / (1 - q) ^ 2 <= 4).
  { split; [apply Rinv_0_lt_compat; lra|]. replace 4 with (/ (1 / 4)) by field. apply Rinv_le_contravar; lra. }
  assert (KF : 0 < 4 * kfac 1 x1 x2 x * (x1 / x) * (x2 / x) <= C).
  { unfold kfac. replace (2 * (x1 + x2) - 2 * ((1 - 1) * x)) with (2 * (x1 + x2)) by ring. unfold C. set (w := 4 * (2 + x1) * (2 + x2) * exp (2 * (x1 + x2)) * x1 * x2).
    assert (wp : 0 < w) by (unfold w; do 5 (apply Rmult_lt_0_compat; [|lra]); lra).
    replace (4 * (4 * (1 + x) ^ 2 * (2 + x1) * (2 + x2) * exp (2 * (x1 + x2))) * (x1 / x) * (x2 / x)) with (4 * (((1 + x) / x) ^ 2 * w)) by (unfold w; field; lra).
    replace (4 * (4 * 4 * (2 + x1) * (2 + x2) * exp (2 * (x1 + x2)) * x1 * x2)) with (4 * (4 * w)) by (unfold w; ring).
    assert (F : 0 < (1 + x) / x <= 2). { split; [apply Rdiv_lt_0_compat; lra|]. apply (Rmult_le_reg_r x); [lra|]. replace ((1 + x) / x * x) with (1 + x) by (field; lra). lra. }
    assert (F2 : 0 < ((1 + x) / x) ^ 2 <= 4). { split; [apply pow_lt; lra|]. replace 4 with (2 ^ 2) by ring. apply pow_incr. lra. }
    set (y := ((1 + x) / x) ^ 2) in *. split; [assert (0 < y * w) by (apply Rmult_lt_0_compat; lra); lra|]. assert (y * w <= 4 * w) by (apply Rmult_le_compat_r; lra). lra. }
  unfold reach. fold x1 x2 x q. set (K := 4 * kfac 1 x1 x2 x * (x1 / x) * (x2 / x)) in *. unfold Rdiv.
  assert (T : 0 < K * q ^ (2 * lmin m) <= C * (p / 2)).
  { split; [apply Rmult_lt_0_compat; lra|]. apply Rmult_le_compat; lra. }
  split; [apply Rmult_lt_0_compat; lra|].
  apply Rle_lt_trans with (C * (p / 2) * 4); [apply Rmult_le_compat; lra|nra].
Qed.
