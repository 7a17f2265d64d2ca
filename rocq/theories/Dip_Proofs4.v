(** * Two dipoles far apart *)
From Coq Require Import Reals.
From Coquelicot Require Import Coquelicot.
From Coq Require Import Bool ZArith List Lia Lra Psatz.
From Verif Require Import Base Mat_Model Mat_Spec Scat_Model Scat_Spec Scat_Proofs7 Dip_Spec Dip_Proofs.
Import ListNotations.
Open Scope R_scope.

(** ** ln(1 - delta X + delta^2 Y) *)
Lemma ln_second z : Rabs z <= 1 / 2 -> Rabs (ln (1 + z) - z) <= z ^ 2.
Proof.
  intros Hz. assert (Z : - (1 / 2) <= z <= 1 / 2) by (apply Rabs_le_between; exact Hz).
  assert (U : ln (1 + z) <= z). { assert (H := exp_ineq1_le (ln (1 + z))). rewrite exp_ln in H by lra. lra. }
  assert (L : z / (1 + z) <= ln (1 + z)). { assert (H := exp_ineq1_le (ln (/ (1 + z)))). rewrite exp_ln in H by (apply Rinv_0_lt_compat; lra). rewrite ln_Rinv in H by lra.
    replace (z / (1 + z)) with (1 - / (1 + z)) by (field; lra). lra. }
  assert (L2 : z - z ^ 2 <= z / (1 + z) \/ z < 0). { destruct (Rle_or_lt 0 z) as [h|h]; [left|now right]. replace (z / (1 + z)) with (z - z ^ 2 + z ^ 3 / (1 + z)) by (field; lra). assert (0 <= z ^ 3 / (1 + z)). { apply Rmult_le_pos; [apply pow_le; lra|left; apply Rinv_0_lt_compat; lra]. } lra. }
  destruct L2 as [L2|L2].
  - apply Rabs_le. assert (0 <= z ^ 2) by apply pow2_ge_0. split; lra.
  - (* z < 0: -ln(1+z) = ln (1/(1+z)), second order *)
    assert (Q : - ln (1 + z) <= - z + z ^ 2).
    { set (y := - z) in *. assert (Y : 0 < y <= 1 / 2) by (unfold y; lra). replace (z ^ 2) with (y ^ 2) by (unfold y; ring). replace (1 + z) with (1 - y) by (unfold y; ring). unfold y at 2. fold y.
      assert (E : exp (- (y + y ^ 2)) <= 1 - y).
      { assert (H := exp_ineq1_le (y + y ^ 2)). assert (HE := exp_pos (y + y ^ 2)). rewrite exp_Ropp. apply (Rmult_le_reg_r (exp (y + y ^ 2))); [lra|]. rewrite Rinv_l by lra.
        assert (1 <= (1 - y) * (1 + (y + y ^ 2) + (y + y ^ 2) ^ 2 / 2)). { nra. }
        assert (T : 1 + (y + y ^ 2) + (y + y ^ 2) ^ 2 / 2 <= exp (y + y ^ 2)).
        { set (w := y + y ^ 2). assert (W : 0 <= w) by (unfold w; nra). clearbody w. 
          assert (G : forall t, 0 <= t -> 0 <= exp t - (1 + t + t ^ 2 / 2)).
          { intros t Ht. destruct (Req_dec t 0) as [->|Nt]; [rewrite exp_0; lra|].
            destruct (MVT_gen (fun t => exp t - (1 + t + t ^ 2 / 2)) 0 t (fun t => exp t - (1 + t))) as [c [_ E]].
            - intros u _. auto_derive; [exact Logic.I|]. field.
            - intros u _. apply continuity_pt_filterlim. apply (ex_derive_continuous (fun t => exp t - (1 + t + t ^ 2 / 2))). auto_derive. exact Logic.I.
            - rewrite exp_0 in E. assert (HC := exp_ineq1_le c). assert (0 <= (exp c - (1 + c)) * (t - 0)) by (apply Rmult_le_pos; lra). lra. }
          specialize (G w W). lra. }
        apply Rle_trans with ((1 - y) * (1 + (y + y ^ 2) + (y + y ^ 2) ^ 2 / 2)); [lra|]. apply Rmult_le_compat_l; lra. }
      apply ln_le in E; [|apply exp_pos]. rewrite ln_exp in E. lra. }
    apply Rabs_le. assert (0 <= z ^ 2) by apply pow2_ge_0. split; lra.
Qed.
Lemma ln_dipole C : 0 < C -> forall eps, 0 < eps -> exists d0, 0 < d0 /\ forall d X Y, 0 < d <= d0 -> Rabs X <= C -> Rabs Y <= C ->
  0 < 1 - d * X + d ^ 2 * Y /\ Rabs (ln (1 - d * X + d ^ 2 * Y) / d + X) < eps.
Proof.
  intros HC eps He. set (K := C + (2 * C) ^ 2). assert (HK : 0 < K) by (unfold K; nra).
  exists (Rmin 1 (Rmin (/ (4 * C)) (eps / (2 * K)))). assert (Q1 : 0 < / (4 * C)) by (apply Rinv_0_lt_compat; lra). assert (Q2 : 0 < eps / (2 * K)) by (apply Rdiv_lt_0_compat; lra).
  split; [repeat apply Rmin_glb_lt; lra|]. intros d X Y [Hd Hd0] HX HY.
  assert (D1 : d <= 1) by (eapply Rle_trans; [exact Hd0|apply Rmin_l]).
  assert (D2 : d <= / (4 * C)) by (eapply Rle_trans; [exact Hd0|]; eapply Rle_trans; [apply Rmin_r|apply Rmin_l]).
  assert (D3 : d <= eps / (2 * K)) by (eapply Rle_trans; [exact Hd0|]; eapply Rle_trans; [apply Rmin_r|apply Rmin_r]).
  assert (DC : d * C <= 1 / 4). { apply (Rmult_le_compat_r C) in D2; [|lra]. replace (/ (4 * C) * C) with (1 / 4) in D2 by (field; lra). exact D2. }
  set (z := - (d * X) + d ^ 2 * Y). replace (1 - d * X + d ^ 2 * Y) with (1 + z) by (unfold z; ring).
  assert (ZB : Rabs z <= d * (2 * C)).
  { unfold z. eapply Rle_trans; [apply Rabs_triang|]. rewrite Rabs_Ropp, !Rabs_mult, (Rabs_pos_eq d), (Rabs_pos_eq (d ^ 2)) by (try apply pow_le; lra).
    assert (d * Rabs X <= d * C) by (apply Rmult_le_compat_l; lra). assert (d ^ 2 * Rabs Y <= d ^ 2 * C) by (apply Rmult_le_compat_l; [apply pow_le|]; lra).
    assert (d ^ 2 * C <= d * C) by (apply Rmult_le_compat_r; [lra|nra]). lra. }
  assert (Z2 : Rabs z <= 1 / 2) by lra. assert (Z := proj1 (Rabs_le_between _ _) Z2). split; [lra|].
  assert (S := ln_second z Z2).
  replace (ln (1 + z) / d + X) with ((ln (1 + z) - z) / d + d * Y) by (unfold z; field; lra).
  eapply Rle_lt_trans; [apply Rabs_triang|]. unfold Rdiv. rewrite !Rabs_mult, Rabs_inv, (Rabs_pos_eq d) by lra.
  assert (z ^ 2 <= d ^ 2 * (2 * C) ^ 2). { rewrite <- pow2_abs, <- Rpow_mult_distr. apply pow_incr. split; [apply Rabs_pos|exact ZB]. }
  assert (B1 : Rabs (ln (1 + z) - z) * / d <= d * (2 * C) ^ 2). { apply (Rmult_le_reg_r d); [lra|]. rewrite Rmult_assoc, Rinv_l by lra. nra. }
  assert (B2 : d * Rabs Y <= d * C) by (apply Rmult_le_compat_l; lra).
  assert (B3 : d * K <= eps / 2). { apply (Rmult_le_compat_r K) in D3; [|lra]. replace (eps / (2 * K) * K) with (eps / 2) in D3 by (field; lra). exact D3. }
  unfold K in B3. lra.
Qed.

(** ** the determinant of the two by two matrix in units of the cubes of the radii over the distance *)
Definition tau0 (x : R) : R := 3 * exp (- x) * (1 + x).
Definition tau1 (x : R) : R := - (3 / 2) * exp (- x) * (1 + x + x ^ 2).
Definition tau2 (x : R) : R := 3 / 2 * exp (- x) * (x + x ^ 2).
Lemma t_tau x : 0 < x -> t0 x = tau0 x / x ^ 3 /\ t1 x = tau1 x / x ^ 3 /\ t2 x = tau2 x / x ^ 3.
Proof. intros Hx. unfold t0, t1, t2, tau0, tau1, tau2. repeat split; field; lra. Qed.
Definition dX (A A' B B' v w : R) : R := (A * B + A' * B') * v ^ 2 - (A * B' + A' * B) * w ^ 2.
Definition dY (A A' B B' v w : R) : R := A * A' * B * B' * (v ^ 2 - w ^ 2) ^ 2.
Lemma det_scaled k ra rb L s q A A' B B' v w : 0 < k -> 0 < L -> 0 < s ->
  let x := k * L * s in let P := (k * ra * (s * q)) ^ 3 in let Q := (k * rb * (s * q)) ^ 3 in let d := (ra * rb / L ^ 2) ^ 3 in
  1 - dX (P * A) (P * A') (Q * B) (Q * B') (v / x ^ 3) (w / x ^ 3) + dY (P * A) (P * A') (Q * B) (Q * B') (v / x ^ 3) (w / x ^ 3) =
  1 - d * (q ^ 6 * dX A A' B B' v w) + d ^ 2 * (q ^ 12 * dY A A' B B' v w).
Proof. intros Hk HL Hs x P Q d. unfold dX, dY, x, P, Q, d. field. repeat split; lra. Qed.
Lemma dX_dip pe pm pe' pm' x : dX (2 / 3 * pm) (2 / 3 * pe) (2 / 3 * pm') (2 / 3 * pe') (tau0 x) 0 = dip0 (pe * pe' + pm * pm') x /\
  dX (2 / 3 * pm) (2 / 3 * pe) (2 / 3 * pm') (2 / 3 * pe') (tau1 x) (tau2 x) = dip1 (pe * pe' + pm * pm') (pe * pm' + pm * pe') x.
Proof.
  assert (E : exp (- (2 * x)) = exp (- x) * exp (- x)) by (rewrite <- exp_plus; f_equal; ring). unfold dX, dip0, dip1, tau0, tau1, tau2. rewrite E. split; field.
Qed.

Lemma tau_cont x : continuity_pt tau0 x /\ continuity_pt tau1 x /\ continuity_pt tau2 x.
Proof.
  repeat split; apply continuity_pt_filterlim; [apply (ex_derive_continuous tau0)|apply (ex_derive_continuous tau1)|apply (ex_derive_continuous tau2)]; unfold tau0, tau1, tau2; auto_derive; exact Logic.I.
Qed.
Section Limits.
  Context (A A' B B' q s y : R -> R) (a a' b b' s0 y0 : R).
  Context (HA : lim0 A a) (HA' : lim0 A' a') (HB : lim0 B b) (HB' : lim0 B' b') (Hq : lim0 q 1) (Hs : lim0 s s0) (Hy : lim0 y y0).
  Lemma lim_dX (f g : R -> R) : continuity_pt f (y0 * s0) -> continuity_pt g (y0 * s0) ->
    lim0 (fun k => q k ^ 6 * dX (A k) (A' k) (B k) (B' k) (f (y k * s k)) (g (y k * s k))) (dX a a' b b' (f (y0 * s0)) (g (y0 * s0))) /\
    lim0 (fun k => q k ^ 12 * dY (A k) (A' k) (B k) (B' k) (f (y k * s k)) (g (y k * s k))) (dY a a' b b' (f (y0 * s0)) (g (y0 * s0))).
  Proof.
    intros Hf Hg. assert (YS := lim0_mult _ _ _ _ Hy Hs). assert (F := lim0_comp f _ _ Hf YS). assert (G := lim0_comp g _ _ Hg YS). split.
    - apply lim0_eq with (1 ^ 6 * dX a a' b b' (f (y0 * s0)) (g (y0 * s0))); [ring|]. apply lim0_mult; [now apply lim0_pow|]. unfold dX.
      apply lim0_minus; (apply lim0_mult; [apply lim0_plus; now apply lim0_mult|now apply lim0_pow]).
    - apply lim0_eq with (1 ^ 12 * dY a a' b b' (f (y0 * s0)) (g (y0 * s0))); [ring|]. apply lim0_mult; [now apply lim0_pow|]. unfold dY.
      apply lim0_mult; [repeat (apply lim0_mult; [|assumption]); assumption|]. apply lim0_pow. apply lim0_minus; now apply lim0_pow.
  Qed.
End Limits.
Lemma lim0_close f v eps : lim0 f v -> 0 < eps -> exists r0, 0 < r0 /\ forall r, 0 < r <= r0 -> Rabs (f r - v) < eps.
Proof.
  intros H He. destruct (H (fun t => Rabs (t - v) < eps)) as [d D].
  - exists (mkposreal eps He). intros y B. exact B.
  - exists (d / 2). assert (Hd := cond_pos d). split; [lra|]. intros r [h1 h2]. apply D; [|exact h1]. change (Rabs (r + - 0) < d). rewrite Rabs_pos_eq; lra.
Qed.
(** a family 1 - d X + d^2 Y with X and Y converging: all distances from some one on *)
Lemma far_ln (X Y : R -> R) v w y r eps : lim0 X v -> lim0 Y w -> 0 < y -> 0 < r -> 0 < eps ->
  exists L0, 0 < L0 /\ forall L, L0 <= L -> let d := (r / L ^ 2) ^ 3 in let t := 1 - d * X (y / L) + d ^ 2 * Y (y / L) in 0 < t /\ Rabs (ln t / d + v) < eps.
Proof.
  intros HX HY Hy Hr He. destruct (lim0_close X v (Rmin 1 (eps / 2)) HX ltac:(apply Rmin_glb_lt; lra)) as [k1 [K1 B1]]. destruct (lim0_close Y w 1 HY Rlt_0_1) as [k2 [K2 B2]].
  set (C := Rabs v + Rabs w + 1). assert (P1 := Rabs_pos v). assert (P2 := Rabs_pos w). assert (HC : 0 < C) by (unfold C; lra).
  destruct (ln_dipole C HC (eps / 2) ltac:(lra)) as [d0 [D0 HD]].
  exists (1 + y / k1 + y / k2 + r + r / d0). assert (0 < y / k1) by (apply Rdiv_lt_0_compat; lra). assert (0 < y / k2) by (apply Rdiv_lt_0_compat; lra). assert (0 < r / d0) by (apply Rdiv_lt_0_compat; lra).
  split; [lra|]. intros L HL d t. assert (YL : forall k0, 0 < k0 -> y / k0 <= L -> 0 < y / L <= k0).
  { intros k0 Hk0 h. split; [apply Rdiv_lt_0_compat; lra|]. apply (Rmult_le_reg_r L); [lra|]. unfold Rdiv. rewrite Rmult_assoc, Rinv_l by lra. apply (Rmult_le_compat_r k0) in h; [|lra]. unfold Rdiv in h. rewrite Rmult_assoc, Rinv_l in h by lra. lra. }
  assert (X1 := B1 (y / L) (YL k1 K1 ltac:(lra))). assert (Y1 := B2 (y / L) (YL k2 K2 ltac:(lra))).
  assert (M1 := Rmin_l 1 (eps / 2)). assert (M2 := Rmin_r 1 (eps / 2)).
  assert (XC : Rabs (X (y / L)) <= C). { replace (X (y / L)) with (v + (X (y / L) - v)) by ring. eapply Rle_trans; [apply Rabs_triang|]. unfold C. lra. }
  assert (YC : Rabs (Y (y / L)) <= C). { replace (Y (y / L)) with (w + (Y (y / L) - w)) by ring. eapply Rle_trans; [apply Rabs_triang|]. unfold C. lra. }
  assert (L2 : 0 < L ^ 2) by nra. assert (Q : 0 < r / L ^ 2) by (apply Rdiv_lt_0_compat; lra).
  assert (Q1 : r / L ^ 2 <= r / L). { unfold Rdiv. apply Rmult_le_compat_l; [lra|]. apply Rinv_le_contravar; [lra|]. assert (L * 1 <= L * L) by (apply Rmult_le_compat_l; lra). simpl. lra. }
  assert (Q2 : r / L <= 1). { apply (Rmult_le_reg_r L); [lra|]. unfold Rdiv. rewrite Rmult_assoc, Rinv_l by lra. lra. }
  assert (Q3 : r / L <= d0). { apply (Rmult_le_reg_r L); [lra|]. unfold Rdiv. rewrite Rmult_assoc, Rinv_l by lra. assert (h : r / d0 <= L) by lra. apply (Rmult_le_compat_r d0) in h; [|lra]. unfold Rdiv in h. rewrite Rmult_assoc, Rinv_l in h by lra. lra. }
  assert (DD : 0 < d <= d0). { unfold d. split; [now apply pow_lt|]. set (z := r / L ^ 2) in *. assert (z ^ 2 <= 1) by (assert (0 <= z) by lra; nra). simpl in *. nra. }
  destruct (HD d _ _ DD XC YC) as [T1 T2]. split; [exact T1|]. fold t in T1, T2.
  replace (ln t / d + v) with ((ln t / d + X (y / L)) - (X (y / L) - v)) by ring. eapply Rle_lt_trans; [apply Rabs_triang|]. rewrite Rabs_Ropp. lra.
Qed.
Lemma far_ln_static v w r eps : 0 < r -> 0 < eps -> exists L0, 0 < L0 /\ forall L, L0 <= L -> let d := (r / L ^ 2) ^ 3 in let t := 1 - d * v + d ^ 2 * w in 0 < t /\ Rabs (ln t / d + v) < eps.
Proof. intros Hr He. exact (far_ln (fun _ => v) (fun _ => w) v w 1 r eps (lim0_const v) (lim0_const w) Rlt_0_1 Hr He). Qed.
