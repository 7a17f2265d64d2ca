(** * Spheres with centres at least five sums of radii apart: the bound of the round trip for all frequencies *)
From Coq Require Import Reals Lra Lia ZArith.
From Verif Require Import Base Mat_Model Mat_Spec Scat_Spec Scat_Proofs Scat_Proofs4 Lin_Model RT_Model Conv_Spec.
Open Scope R_scope.

Lemma lin_exp (c x : R) : 0 < c -> 0 <= x -> 0 < 1 + x <= c * exp (x / c) \/ c < 1.
Proof.
  intros Hc Hx. destruct (Rle_lt_dec 1 c) as [H|H]; [left|right; exact H]. split; [lra|].
  assert (E := exp_ineq1_le (x / c)). apply Rle_trans with (c * (1 + x / c)); [|apply Rmult_le_compat_l; lra].
  replace (c * (1 + x / c)) with (c + x) by (field; lra). lra.
Qed.
Lemma reach_near e u m k ra rb L : 0 < e k -> u k = 1 -> 0 < k -> 0 < ra -> 0 < rb -> 5 * (ra + rb) <= L ->
  0 < rate (3 / 5) e u k ra rb L <= 1 / 9 /\ 0 < reach (3 / 5) e u m k ra rb L <= 1 / 2 * (1 / 81) ^ (lmin m - 1) * exp (- (way e k L / 70)).
Proof.
  intros He Hu Hk Ha Hb HL. assert (LP : 0 < L) by lra. set (x := way e k L). assert (SP := sqrt_lt_R0 _ He).
  assert (XP : 0 < x) by (unfold x, way; apply Rmult_lt_0_compat; [now apply Rmult_lt_0_compat|assumption]).
  set (a := ra / L). set (b := rb / L). assert (IL : 0 < / L) by now apply Rinv_0_lt_compat.
  assert (A : 0 < a) by (now apply Rmult_lt_0_compat). assert (B : 0 < b) by (now apply Rmult_lt_0_compat).
  assert (AB : a + b <= 1 / 5).
  { apply (Rmult_le_reg_r L); [assumption|]. replace ((a + b) * L) with (ra + rb) by (unfold a, b; field; lra). lra. }
  assert (X1 : size e u k ra = a * x) by (unfold size, refr, a, x, way; rewrite Hu, Rmult_1_r; field; lra).
  assert (X2 : size e u k rb = b * x) by (unfold size, refr, b, x, way; rewrite Hu, Rmult_1_r; field; lra).
  assert (Q : rate (3 / 5) e u k ra rb L = (5 * (a + b) / 3) ^ 2) by (unfold rate; fold x; rewrite X1, X2; f_equal; field; lra).
  unfold reach. cbv zeta. fold x. rewrite Q, X1, X2. set (q := (5 * (a + b) / 3) ^ 2).
  assert (q0 : 0 < q <= 1 / 9).
  { unfold q. split; [apply pow_lt; lra|]. replace (1 / 9) with ((1 / 3) ^ 2) by (cbn [pow]; lra). apply pow_incr. lra. }
  split; [exact q0|].
  replace (a * x / x) with a by (field; lra). replace (b * x / x) with b by (field; lra).
  assert (P1 : (1 <= lmin m)%nat) by (unfold lmin; lia).
  assert (QL : 0 < q ^ (2 * lmin m) <= (1 / 81) * (1 / 81) ^ (lmin m - 1)).
  { split; [apply pow_lt; lra|]. replace (1 / 81 * (1 / 81) ^ (lmin m - 1)) with ((1 / 81) ^ lmin m) by (replace (lmin m) with (S (lmin m - 1)) at 1 by lia; reflexivity).
    rewrite pow_mult. apply pow_incr. split; [apply pow_le; lra|]. replace (1 / 81) with ((1 / 9) ^ 2) by (cbn [pow]; lra). apply pow_incr. lra. }
  assert (D : 0 < / (1 - q) ^ 2 <= 81 / 64).
  { assert (T : 64 / 81 <= (1 - q) ^ 2). { replace (64 / 81) with ((8 / 9) ^ 2) by (cbn [pow]; lra). apply pow_incr. lra. }
    split; [apply Rinv_0_lt_compat; lra|]. replace (81 / 64) with (/ (64 / 81)) by field. apply Rinv_le_contravar; lra. }
  assert (G : 0 < a * b <= 1 / 100) by (split; [now apply Rmult_lt_0_compat|]; assert (Y : 0 <= (a - b) * (a - b)) by apply Rle_0_sqr; assert (Y2 : (a + b) * (a + b) <= 1 / 5 * (1 / 5)) by (apply Rmult_le_compat; lra); lra).
  set (E := exp (- (x / 70))). assert (EP := exp_pos (- (x / 70))). fold E in EP.
  assert (F : 0 < kfac (3 / 5) (a * x) (b * x) x <= 784 * E).
  { unfold kfac. set (w := exp (2 * (a * x + b * x) - 2 * ((1 - 3 / 5) * x))). assert (WP : 0 < w) by apply exp_pos.
    assert (W : w <= exp (- (2 / 5 * x))). { unfold w. destruct (Req_dec (2 * (a * x + b * x) - 2 * ((1 - 3 / 5) * x)) (- (2 / 5 * x))) as [->|N]; [right; reflexivity|]. left. apply exp_increasing. assert ((a + b) * x <= 1 / 5 * x) by (apply Rmult_le_compat_r; lra). lra. }
    assert (T1 : 0 < 1 + x <= 7 * exp (x / 7)) by (destruct (lin_exp 7 x); lra).
    assert (T2 : 0 < 2 + a * x <= 2 * exp (a * x / 2)). { assert (I := exp_ineq1_le (a * x / 2)). assert (0 < a * x) by (now apply Rmult_lt_0_compat). lra. }
    assert (T3 : 0 < 2 + b * x <= 2 * exp (b * x / 2)). { assert (I := exp_ineq1_le (b * x / 2)). assert (0 < b * x) by (now apply Rmult_lt_0_compat). lra. }
    assert (S1 : 0 < (1 + x) ^ 2 <= 49 * exp (2 * x / 7)).
    { split; [apply pow_lt; lra|]. replace (2 * x / 7) with (x / 7 + x / 7) by field. rewrite exp_plus. cbn [pow]. rewrite Rmult_1_r.
      replace (49 * (exp (x / 7) * exp (x / 7))) with (7 * exp (x / 7) * (7 * exp (x / 7))) by ring. apply Rmult_le_compat; lra. }
    split; [repeat apply Rmult_lt_0_compat; lra|].
    apply Rle_trans with (4 * (49 * exp (2 * x / 7)) * (2 * exp (a * x / 2)) * (2 * exp (b * x / 2)) * exp (- (2 / 5 * x))).
    - apply Rmult_le_compat; [|lra| |exact W].
      + left. repeat apply Rmult_lt_0_compat; lra.
      + apply Rmult_le_compat; [|lra| |lra]; [left; repeat apply Rmult_lt_0_compat; lra|]. apply Rmult_le_compat; [|lra| |lra]; [left; repeat apply Rmult_lt_0_compat; lra|]. lra.
    - replace (4 * (49 * exp (2 * x / 7)) * (2 * exp (a * x / 2)) * (2 * exp (b * x / 2)) * exp (- (2 / 5 * x))) with (784 * (exp (2 * x / 7) * exp (a * x / 2) * exp (b * x / 2) * exp (- (2 / 5 * x)))) by ring.
      apply Rmult_le_compat_l; [lra|]. rewrite <- !exp_plus. unfold E.
      destruct (Req_dec (2 * x / 7 + a * x / 2 + b * x / 2 + - (2 / 5 * x)) (- (x / 70))) as [->|N]; [right; reflexivity|]. left. apply exp_increasing.
      assert ((a + b) * x <= 1 / 5 * x) by (apply Rmult_le_compat_r; lra). lra. }
  set (K := kfac (3 / 5) (a * x) (b * x) x) in *. set (y := q ^ (2 * lmin m)) in *. set (z := (1 / 81) ^ (lmin m - 1)) in *. set (d := / (1 - q) ^ 2) in *.
  assert (zp : 0 < z) by (apply pow_lt; lra).
  replace (4 * K * a * b * y / (1 - q) ^ 2) with (4 * (K * (a * b) * (y * d))) by (unfold d; field; lra).
  assert (U1 : 0 < K * (a * b) <= 784 * E * (1 / 100)) by (split; [apply Rmult_lt_0_compat; lra|apply Rmult_le_compat; lra]).
  assert (U2 : 0 < y * d <= 1 / 81 * z * (81 / 64)) by (split; [apply Rmult_lt_0_compat; lra|apply Rmult_le_compat; lra]).
  assert (U3 : 0 < K * (a * b) * (y * d) <= 784 * E * (1 / 100) * (1 / 81 * z * (81 / 64))) by (split; [apply Rmult_lt_0_compat; lra|apply Rmult_le_compat; lra]).
  assert (EZ : 0 < z * E) by (apply Rmult_lt_0_compat; lra). split; [lra|]. lra.
Qed.
