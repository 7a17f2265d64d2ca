(** * The value of the sum of 1/n^3, and sums over equidistant frequencies *)
From Coq Require Import Reals.
From Coquelicot Require Import Coquelicot.
From Coq Require Import ZArith List Lia Lra Psatz.
From Verif Require Import Base Scat_Model PFA_Model PFA_Spec PFA_Proofs3 Plate_Spec Zeta_Proofs Plate_Proofs.
Open Scope R_scope.

(** ** the sum of 1/n^3 to nine digits *)
Definition rest (n : nat) : R := / (2 * INR n ^ 2 + 2 * INR n + 1).
Lemma rest_step n : rest n - rest (S n) <= inv_pow 3 n /\ ((20 <= n)%nat -> inv_pow 3 n <= (1 + / 640000) * (rest n - rest (S n))).
Proof.
  unfold rest, inv_pow. assert (N : 0 <= INR n) by apply pos_INR. rewrite S_INR. set (x := INR n) in *.
  assert (E : / (2 * x ^ 2 + 2 * x + 1) - / (2 * (x + 1) ^ 2 + 2 * (x + 1) + 1) = (x + 1) / ((x + 1) ^ 4 + / 4)).
  { assert (0 < (x + 1) ^ 4) by (apply pow_lt; lra). field. repeat split; nra. }
  rewrite E. assert (P3 : 0 < (x + 1) ^ 3) by (apply pow_lt; lra). assert (P4 : 0 < (x + 1) ^ 4) by (apply pow_lt; lra). split.
  - apply Rmult_le_reg_r with ((x + 1) ^ 3 * ((x + 1) ^ 4 + / 4)); [apply Rmult_lt_0_compat; lra|].
    replace ((x + 1) / ((x + 1) ^ 4 + / 4) * ((x + 1) ^ 3 * ((x + 1) ^ 4 + / 4))) with ((x + 1) ^ 4) by (field; lra). replace (/ (x + 1) ^ 3 * ((x + 1) ^ 3 * ((x + 1) ^ 4 + / 4))) with ((x + 1) ^ 4 + / 4) by (field; lra). lra.
  - intros H20. assert (X : 20 <= x) by (unfold x; replace 20 with (INR 20) by (cbn; ring); now apply le_INR). assert (Q : 160000 <= (x + 1) ^ 4) by (apply Rle_trans with (20 ^ 4); [lra|apply pow_incr; lra]).
    apply Rmult_le_reg_r with ((x + 1) ^ 3 * ((x + 1) ^ 4 + / 4)); [apply Rmult_lt_0_compat; lra|].
    replace ((1 + / 640000) * ((x + 1) / ((x + 1) ^ 4 + / 4)) * ((x + 1) ^ 3 * ((x + 1) ^ 4 + / 4))) with ((1 + / 640000) * (x + 1) ^ 4) by (field; lra). replace (/ (x + 1) ^ 3 * ((x + 1) ^ 3 * ((x + 1) ^ 4 + / 4))) with ((x + 1) ^ 4 + / 4) by (field; lra). lra.
Qed.
Lemma rest_pos n : 0 < rest n.
Proof. unfold rest. apply Rinv_0_lt_compat. pose proof (pos_INR n). nra. Qed.
Lemma part_bounds m : sm (inv_pow 3) 20 + rest 20 - rest (20 + m) <= sm (inv_pow 3) (20 + m) <= sm (inv_pow 3) 20 + (1 + / 640000) * (rest 20 - rest (20 + m)).
Proof.
  induction m as [|m IH]; [rewrite Nat.add_0_r; lra|]. rewrite Nat.add_succ_r. change (sm (inv_pow 3) (S (20 + m))) with (sm (inv_pow 3) (20 + m) + inv_pow 3 (20 + m)). destruct (rest_step (20 + m)) as [A B]. specialize (B ltac:(lia)). lra.
Qed.
Lemma rest_lim : is_lim_seq rest 0.
Proof.
  apply is_lim_seq_le_le with (fun _ => 0) (fun n => / INR (S n)).
  - intros n. split; [left; apply rest_pos|]. unfold rest. rewrite S_INR. pose proof (pos_INR n). apply Rinv_le_contravar; nra.
  - apply is_lim_seq_const.
  - apply (is_lim_seq_incr_1 (fun n => / INR n)). replace (Finite 0) with (Rbar_inv p_infty) by reflexivity. apply is_lim_seq_inv; [apply is_lim_seq_INR|discriminate].
Qed.
Lemma zeta3_part : sm (inv_pow 3) 20 + rest 20 <= zeta3 <= sm (inv_pow 3) 20 + (1 + / 640000) * rest 20.
Proof.
  destruct (zeta_ex 3 ltac:(lia)) as [Hex _]. assert (HS := Series_correct _ Hex). change (Series (inv_pow 3)) with zeta3 in HS.
  assert (L1 : is_lim_seq (fun n => sm (inv_pow 3) n) zeta3). { apply is_lim_seq_incr_1. apply is_lim_seq_ext with (sum_n (inv_pow 3)); [intros n; symmetry; apply sm_sum_n|exact HS]. }
  assert (L2 : is_lim_seq (fun m => sm (inv_pow 3) (20 + m)) zeta3) by (apply is_lim_seq_ext with (fun m => sm (inv_pow 3) (m + 20)); [intros m; rewrite (Nat.add_comm m 20); reflexivity|]; exact (proj1 (is_lim_seq_incr_n (fun n => sm (inv_pow 3) n) 20 zeta3) L1)).
  assert (L3 : is_lim_seq (fun m => rest (20 + m)) 0) by (apply is_lim_seq_ext with (fun m => rest (m + 20)); [intros m; rewrite (Nat.add_comm m 20); reflexivity|]; exact (proj1 (is_lim_seq_incr_n rest 20 0) rest_lim)). split.
  - replace (sm (inv_pow 3) 20 + rest 20) with (sm (inv_pow 3) 20 + rest 20 - 0) by ring. apply (is_lim_seq_le (fun m => sm (inv_pow 3) 20 + rest 20 - rest (20 + m)) (fun m => sm (inv_pow 3) (20 + m)) (sm (inv_pow 3) 20 + rest 20 - 0) zeta3); [intros m; apply part_bounds| |exact L2].
    apply is_lim_seq_minus'; [apply is_lim_seq_const|exact L3].
  - replace ((1 + / 640000) * rest 20) with ((1 + / 640000) * (rest 20 - 0)) by ring. apply (is_lim_seq_le (fun m => sm (inv_pow 3) (20 + m)) (fun m => sm (inv_pow 3) 20 + (1 + / 640000) * (rest 20 - rest (20 + m))) zeta3 (sm (inv_pow 3) 20 + (1 + / 640000) * (rest 20 - 0))); [intros m; apply part_bounds|exact L2|].
    apply is_lim_seq_plus'; [apply is_lim_seq_const|]. apply (is_lim_seq_scal_l _ (1 + / 640000) (Finite (rest 20 - 0))). apply is_lim_seq_minus'; [apply is_lim_seq_const|exact L3].
Qed.
Lemma zeta3_value : Rabs (zeta3 - 1.202056903) <= 5e-9.
Proof.
  destruct zeta3_part as [A B]. unfold rest in A, B. unfold inv_pow in A, B. cbn [sm INR pow] in A, B. apply Rabs_le. split; lra.
Qed.

(** ** monotony and sums *)
Section Sums.
Context (L : R) (HL : 0 < L).
Let P := mirror_term L.
Let Q := mirror_tail L.
Lemma derive_cont (f : R -> R) x d : is_derive f x d -> continuity_pt f x.
Proof. intros H. apply continuity_pt_filterlim. apply (ex_derive_continuous f). now exists d. Qed.
Lemma P_less a b : 0 <= a <= b -> P b <= P a.
Proof.
  intros [Ha Hb]. unfold P. destruct (Req_dec a 0) as [->|Na]; [rewrite (term_zero L HL); now apply term_bounds|]. assert (A : 0 < a) by lra. destruct (MVT_gen (mirror_term L) a b (fun k => k * ln (1 - exp (- (2 * L * k))))) as [c [Hc E]].
  - rewrite Rmin_left, Rmax_right by lra. intros x Hx. apply term_derive; lra.
  - rewrite Rmin_left, Rmax_right by lra. intros x Hx. refine (derive_cont _ _ _ (term_derive L HL x _)); lra.
  - rewrite Rmin_left, Rmax_right in Hc by lra. destruct (z_range L HL c ltac:(lra)) as [Z0 Z1]. assert (N : ln (1 - exp (- (2 * L * c))) <= 0) by (rewrite <- ln_1; apply ln_le; lra). set (l := ln _) in *.
    assert (0 <= c * - l * (b - a)) by (apply Rmult_le_pos; [apply Rmult_le_pos|]; lra). lra.
Qed.
Lemma Q_step_pos a b : 0 < a <= b -> (b - a) * P b <= Q a - Q b <= (b - a) * P a.
Proof.
  intros [Ha Hb]. unfold P, Q. destruct (MVT_gen (mirror_tail L) a b (fun k => - mirror_term L k)) as [c [Hc E]].
  - rewrite Rmin_left, Rmax_right by lra. intros x Hx. apply tail_derive; lra.
  - rewrite Rmin_left, Rmax_right by lra. intros x Hx. refine (derive_cont _ _ _ (tail_derive L HL x _)); lra.
  - rewrite Rmin_left, Rmax_right in Hc by lra. assert (A := P_less a c ltac:(lra)). assert (B := P_less c b ltac:(lra)). unfold P in A, B. assert ((b - a) * mirror_term L b <= (b - a) * mirror_term L c) by (apply Rmult_le_compat_l; lra). assert ((b - a) * mirror_term L c <= (b - a) * mirror_term L a) by (apply Rmult_le_compat_l; lra). lra.
Qed.
Lemma Q_step a b : 0 <= a <= b -> (b - a) * P b <= Q a - Q b <= (b - a) * P a.
Proof.
  intros [Ha Hb]. destruct (Req_dec a 0) as [->|Na]; [|apply Q_step_pos; lra]. destruct (Req_dec b 0) as [->|Nb]; [lra|]. assert (B : 0 < b) by lra. rewrite Rminus_0_r.
  assert (P0 : 0 <= P 0) by (apply (term_bounds L HL 0); lra). assert (PB : P b <= P 0) by (apply P_less; lra). assert (PB0 : 0 <= P b) by (apply (term_bounds L HL b); lra).
  assert (X : forall e, 0 < e < b -> (b - e) * P b <= Q 0 - Q b /\ Q 0 - Q b <= b * P 0 + e / L ^ 2).
  { intros e He. assert (S := Q_step_pos e b ltac:(lra)). assert (PE : P e <= P 0) by (apply P_less; lra). destruct (tail_bounds L HL e ltac:(lra)) as [T1 T2]. rewrite <- (tail_zero L HL) in T1, T2. fold Q in T1, T2. split; [lra|].
    assert ((b - e) * P e <= b * P 0) by (apply Rmult_le_compat; try lra; apply (term_bounds L HL e); lra). lra. }
  split; apply Rnot_lt_le; intros C.
  - set (d := b * P b - (Q 0 - Q b)) in *. assert (D : 0 < d) by (unfold d; lra). assert (PP : 0 < P b) by (destruct PB0 as [|E0]; [assumption|]; unfold d in D; rewrite <- E0 in D, X; destruct (X (b / 2) ltac:(lra)); nra).
    destruct (X (Rmin (b / 2) (d / 2 / P b))) as [Y _]; [split; [apply Rmin_pos; [lra|apply Rdiv_lt_0_compat; lra]|apply Rle_lt_trans with (1 := Rmin_l _ _); lra]|].
    assert (M := Rmin_r (b / 2) (d / 2 / P b)). assert (Rmin (b / 2) (d / 2 / P b) * P b <= d / 2). { apply Rle_trans with (d / 2 / P b * P b); [apply Rmult_le_compat_r; lra|]. right. field. lra. } unfold d in *. lra.
  - set (d := Q 0 - Q b - b * P 0) in *. assert (D : 0 < d) by (unfold d; lra). assert (L2 : 0 < L ^ 2) by now apply pow_lt.
    destruct (X (Rmin (b / 2) (d / 2 * L ^ 2))) as [_ Y]; [split; [apply Rmin_pos; [lra|apply Rmult_lt_0_compat; lra]|apply Rle_lt_trans with (1 := Rmin_l _ _); lra]|].
    assert (M := Rmin_r (b / 2) (d / 2 * L ^ 2)). assert (Rmin (b / 2) (d / 2 * L ^ 2) / L ^ 2 <= d / 2). { apply Rmult_le_reg_r with (L ^ 2); [assumption|]. unfold Rdiv at 1. rewrite Rmult_assoc, Rinv_l by lra. lra. } unfold d in *. lra.
Qed.
Lemma Q_less a b : 0 <= a <= b -> Q b <= Q a.
Proof. intros H. destruct (Q_step a b H) as [X _]. assert (0 <= P b) by (apply (term_bounds L HL b); lra). assert (0 <= (b - a) * P b) by (apply Rmult_le_pos; lra). lra. Qed.
Lemma riemann T n : 0 < T -> let s := sum_f_R0 (fun i => if Nat.eqb i 0 then 0 else P (INR i * T)) n in Q T - Q (INR (S n) * T) <= T * s <= Q 0 - Q (INR n * T).
Proof.
  intros HT. cbv zeta. induction n as [|n IH].
  - cbn [sum_f_R0 Nat.eqb INR]. rewrite Rmult_1_l, Rmult_0_l, Rmult_0_r. lra.
  - cbn [sum_f_R0 Nat.eqb]. assert (N : 0 <= INR n) by apply pos_INR. destruct (Q_step (INR n * T) (INR (S n) * T)) as [A _]; [rewrite S_INR; nra|]. destruct (Q_step (INR (S n) * T) (INR (S (S n)) * T)) as [_ B]; [rewrite (S_INR (S n)), S_INR; nra|].
    rewrite (S_INR (S n)) in *. rewrite (S_INR n) in *. rewrite Rmult_plus_distr_l. replace ((INR n + 1) * T - INR n * T) with T in A by ring. replace ((INR n + 1 + 1) * T - (INR n + 1) * T) with T in B by ring. lra.
Qed.
Lemma far_tail k : 20 / L <= k -> Q k <= 11 * exp (-40) / L ^ 3.
Proof.
  intros Hk. assert (P3 : 0 < L ^ 3) by now apply pow_lt. assert (K0 : 0 < 20 / L) by (apply Rdiv_lt_0_compat; lra). apply Rle_trans with (Q (20 / L)); [apply Q_less; lra|]. unfold Q. rewrite tail_g by assumption.
  assert (E40 := exp_pos (-40)). assert (G : forall i, 0 <= g4 L (20 / L) i <= 21 * exp (-40) * inv_pow 4 i).
  { intros i. split; [apply g4_bounds; lra|]. unfold g4. rewrite Rmult_comm. apply Rmult_le_compat_r; [left; apply inv_pow_pos|]. assert (N : 1 <= INR (S i)) by (rewrite S_INR; pose proof (pos_INR i); lra).
    replace (2 * INR (S i) * L * (20 / L)) with (40 * INR (S i)) by (field; lra). set (n := INR (S i)) in *. replace (- (40 * n)) with (-40 + - (40 * (n - 1))) by ring. rewrite exp_plus.
    assert (F := exp_low (40 * (n - 1))). assert (I : exp (40 * (n - 1)) * exp (- (40 * (n - 1))) = 1) by (rewrite <- exp_plus, Rplus_opp_r; apply exp_0). assert (EP := exp_pos (- (40 * (n - 1)))). set (x := exp (- (40 * (n - 1)))) in *. assert ((1 + 40 * n / 2) * x <= 21); [|nra].
    assert (1 + 40 * n / 2 <= 21 * exp (40 * (n - 1))) by lra. assert ((1 + 40 * n / 2) * x <= 21 * exp (40 * (n - 1)) * x) by (apply Rmult_le_compat_r; lra). lra. }
  destruct (zeta_ex 4 ltac:(lia)) as [Z [_ Z2]]. assert (B : Series (g4 L (20 / L)) <= 42 * exp (-40)).
  { apply Rle_trans with (Series (fun i => 21 * exp (-40) * inv_pow 4 i)); [apply Series_le; [exact G|now apply (ex_series_scal_l (21 * exp (-40)) (inv_pow 4))]|]. rewrite Series_scal_l. nra. }
  apply Rmult_le_reg_r with (L ^ 3); [assumption|]. replace (/ (4 * L ^ 3) * Series (g4 L (20 / L)) * L ^ 3) with (Series (g4 L (20 / L)) / 4) by (field; lra). replace (11 * exp (-40) / L ^ 3 * L ^ 3) with (11 * exp (-40)) by (field; lra). lra.
Qed.
Lemma matsubara_sum T w : 0 < T -> 0 <= w <= / 2 ->
  Rabs (T * (w * P 1e-10 + sum_f_R0 (fun i => if Nat.eqb i 0 then 0 else P (INR i * T)) (Z.to_nat (trunc (20 / (T * L))))) - PI ^ 4 / (360 * L ^ 3)) <= T * zeta3 / (4 * L ^ 2) + 11 * exp (-40) / L ^ 3.
Proof.
  intros HT Hw. set (n := Z.to_nat (trunc (20 / (T * L)))). assert (R := riemann T n HT). cbv zeta in R. set (s := sum_f_R0 _ n) in *. assert (D : 0 < 20 / (T * L)) by (apply Rdiv_lt_0_compat; [lra|now apply Rmult_lt_0_compat]).
  assert (N : 20 / L <= INR (S n) * T).
  { assert (G := trunc_gt _ (Rlt_le _ _ D)). assert (Z := trunc_nonneg _ (Rlt_le _ _ D)). assert (E : INR n = IZR (trunc (20 / (T * L)))) by (unfold n; rewrite INR_IZR_INZ, Z2Nat.id by assumption; reflexivity). rewrite S_INR, E.
    replace (20 / L) with (20 / (T * L) * T) by (field; lra). apply Rmult_le_compat_r; lra. }
  assert (F := far_tail _ N). destruct (tail_bounds L HL (INR n * T)) as [B _]; [apply Rmult_le_pos; [apply pos_INR|lra]|]. destruct (Q_step 0 T ltac:(lra)) as [_ S0]. rewrite Rminus_0_r in S0.
  assert (P1 := term_bounds L HL 1e-10 ltac:(lra)). assert (P0 : P 0 = zeta3 / (4 * L ^ 2)) by now apply term_zero. assert (Q0 : Q 0 = PI ^ 4 / (360 * L ^ 3)) by now apply tail_zero. fold P in P1. fold Q in B. rewrite <- P0 in *. rewrite <- Q0 in *.
  replace (T * zeta3 / (4 * L ^ 2)) with (T * P 0) by (rewrite P0; field; lra). assert (W : 0 <= w * P 1e-10 <= / 2 * P 0) by (split; [apply Rmult_le_pos; lra|apply Rmult_le_compat; lra]). assert (W2 : 0 <= T * (w * P 1e-10) <= T * (/ 2 * P 0)) by (split; [apply Rmult_le_pos; lra|apply Rmult_le_compat_l; lra]).
  assert (TP : 0 <= T * P 0) by (apply Rmult_le_pos; lra). assert (E0 : 0 <= 11 * exp (-40) / L ^ 3) by (apply Rdiv_le_0_compat; [pose proof (exp_pos (-40)); lra|now apply pow_lt]). rewrite Rmult_plus_distr_l. apply Rabs_le. lra.
Qed.
End Sums.
