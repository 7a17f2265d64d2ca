(** * The round trips of all truncations are bounded by one geometric series *)
From Coq Require Import Reals.
From Coq Require Import List Lia Lra ZArith.
From mathcomp Require Import all_ssreflect ssralg ssrnum fingroup perm matrix mxalgebra poly mxpoly.
From Verif Require Import Base RStruct Mat_Model Mat_Spec Mat_Proofs Bessel_Model Scat_Model Scat_Spec Scat_Proofs Scat_Proofs4 Scat_Proofs7 Scat_Proofs9 Scat_Proofs10 Scat_Props2 Trans_Model Trans_Spec Trans_Proofs3
  Lin_Model Lin_Spec Bal_Proofs Lin_Proofs Trip_Proofs Lin_Proofs2 RT_Model RT_Spec RT_Spec2 RT_Proofs RT_Proofs2 RT_Proofs3 RT_Proofs4 RT_Proofs6 RT_Proofs7 RT_Proofs8 RT_Proofs9 RT_Proofs10
  RT_Props RT_Props2 RT_Props3 RT_Props5 Exp_Proofs2 Lap_Proofs2 Mono_Proofs Mono_Proofs2 Mono_Proofs3 RT_Props8 Cut_Proofs RT_Props9 RT_Props10 Conv_Spec Conv_Proofs3 Conv_Proofs4 Conv_Proofs5.
Set Implicit Arguments.
Unset Strict Implicit.
Import GRing.Theory.
Local Open Scope ring_scope.
Delimit Scope R_scope with Re.

Lemma abs_sgn (a b : R) : (a * a = 1)%Re -> Rabs (a * b) = Rabs b.
Proof.
move=> h; rewrite Rabs_mult; suff -> : Rabs a = 1%Re by rewrite Rmult_1_l.
have : (Rabs a * Rabs a = 1)%Re by rewrite -Rabs_mult h Rabs_R1.
have := Rabs_pos a; move: (Rabs a) => x x0 xx; nra.
Qed.
Section Bounded.
Context (c : config) (m1 m2 : material) (ra rb : R) (e u : R -> R) (m : Z) (k s th : R).
Context (h1 : c_1 c = Solid m1 ra) (h2 : c_2 c = Solid m2 rb) (hx : c_ext c = true) (hm : has (c_med c) e u) (ha : (0 < ra)%Re) (hb : (0 < rb)%Re) (hL : (0 < c_L c)%Re) (hk : (0 < k)%Re).
Context (g1 : contrast s m1 e u k) (g2 : contrast s m2 e u k) (hth : (0 < th <= 1)%Re) (hq : (rate th e u k ra rb (c_L c) < 1)%Re).
Let x1 := size e u k ra.
Let x2 := size e u k rb.
Let x := way e k (c_L c).
Let q := rate th e u k ra rb (c_L c).
Let K := (4 * kfac th x1 x2 x * (x1 / x) * (x2 / x) * q ^ (2 * lmin m))%Re.
Lemma refr_pos' : (0 < refr e u k * k)%Re.
Proof. by have [_ [hp _]] := hm; have [p1 p2] := hp k hk; apply: Rmult_lt_0_compat => //; exact: refr_pos. Qed.
Lemma x1_pos : (0 < x1)%Re. Proof. by apply: Rmult_lt_0_compat => //; exact: refr_pos'. Qed.
Lemma x2_pos : (0 < x2)%Re. Proof. by apply: Rmult_lt_0_compat => //; exact: refr_pos'. Qed.
Lemma x_pos : (0 < x)%Re. Proof. exact: (xpos (c_med c) e u k (c_L c) hm hk hL). Qed.
Lemma q_ok : (0 <= q < 1)%Re.
Proof. by split; [rewrite /q /rate; exact: pow2_ge_0|exact: hq]. Qed.
Lemma q_pos : (0 < q)%Re.
Proof.
rewrite /q /rate -/x1 -/x2 -/x; apply: pow_lt; have p1 := x1_pos; have p2 := x2_pos; have p := x_pos; have [t0 _] := hth.
by apply: Rmult_lt_0_compat; [lra|apply: Rinv_0_lt_compat; exact: Rmult_lt_0_compat].
Qed.
Lemma K_pos : (0 < K)%Re.
Proof.
have p1 := x1_pos; have p2 := x2_pos; have p := x_pos; have ip : (0 < / x)%Re by exact: Rinv_0_lt_compat.
have qp := pow_lt _ (2 * lmin m) q_pos.
have kf : (0 < kfac th x1 x2 x)%Re.
  rewrite /kfac; apply: Rmult_lt_0_compat; last exact: exp_pos.
  apply: Rmult_lt_0_compat; last lra.
  apply: Rmult_lt_0_compat; last lra.
  by apply: Rmult_lt_0_compat; [lra|apply: pow_lt; lra].
rewrite /K /Rdiv; apply: Rmult_lt_0_compat => //; apply: Rmult_lt_0_compat; last by apply: Rmult_lt_0_compat.
by apply: Rmult_lt_0_compat; [lra|apply: Rmult_lt_0_compat].
Qed.
Context (N M : nat).
Let d := truncated c N M.
Context (ho : some_orders d m).
Let rt := rt_with exact_bessels d m k.
Lemma rate_signed : signed s N k (mieA exact_bessels d) /\ signed s M k (mieB exact_bessels d).
Proof.
by split; [rewrite /mieA [c_1 _]/= h1; apply: (ext_signed _ _ ha _ _ _ hm _ hk)|rewrite /mieB [c_2 _]/= h2 [c_ext _]/= hx; apply: (ext_signed _ _ hb _ _ _ hm _ hk)].
Qed.
Lemma rate_positive : positive (s_of m s) (s_of m s) (sgnZ m) (- sgnZ m) (n1 d m) (n2 d m) rt.
Proof. by have [f1 f2] := rate_signed; apply: (@cut_positive exact_bessels e u m k s hk d). Qed.
Lemma amp_A i : (i < n1 d m)%N -> (pE (s_of m s) (aTE rt) (a2 rt) i <= amp (lmin m + i) x1 /\ pM (s_of m s) (aTM rt) (a2 rt) i <= amp (lmin m + i) x1)%Re.
Proof.
move=> /ltP hi; have hj : (Nat.add (lmin m - 1)%coq_nat i < N)%coq_nat by move: hi; rewrite /n1 /d /truncated /= /lmin; lia.
have ss := contrast_sq g1; have ss1 : ((s * (-1) ^ (Nat.add (lmin m - 1)%coq_nat i + 1)%coq_nat) * (s * (-1) ^ (Nat.add (lmin m - 1)%coq_nat i + 1)%coq_nat) = 1)%Re.
  have e1 := m1_sq (Nat.add (lmin m - 1)%coq_nat i + 1)%coq_nat; have r (a b : R) : (a * a = 1 -> b * b = 1 -> a * b * (a * b) = 1)%Re by move=> r1 r2; transitivity (a * a * (b * b))%Re; [ring|rewrite r1 r2; ring].
  by apply: r.
have [-> -> _ _] := @blocks m k s d i; have eS : (lmin m + i)%N = S (Nat.add (lmin m - 1)%coq_nat i) by rewrite -plusE /lmin; lia.
rewrite eS; have mu pick : pick = TE \/ pick = TM -> (Rabs (entry pick (mieA exact_bessels d) (Nat.add (lmin m - 1)%coq_nat i) k) <= amp (S (Nat.add (lmin m - 1)%coq_nat i)) x1)%Re.
  by move=> hp; rewrite /mieA [c_1 _]/= h1; exact: (mie_up N (c_med c) e u hm k hk m1 ra _ pick hp (contrast_solid g1) ha hj).
split; apply: (Rle_trans _ _ _ (Rle_abs _)); rewrite ?Rabs_Ropp abs_sgn //; apply: mu; [by left|by right].
Qed.
Lemma amp_B i : (i < n2 d m)%N -> (pE (s_of m s) (bTE rt) (b2 rt) i <= amp (lmin m + i) x2 /\ pM (s_of m s) (bTM rt) (b2 rt) i <= amp (lmin m + i) x2)%Re.
Proof.
move=> /ltP hi; have hj : (Nat.add (lmin m - 1)%coq_nat i < M)%coq_nat by move: hi; rewrite /n2 /d /truncated /= /lmin; lia.
have ss := contrast_sq g1; have ss1 : ((s * (-1) ^ (Nat.add (lmin m - 1)%coq_nat i + 1)%coq_nat) * (s * (-1) ^ (Nat.add (lmin m - 1)%coq_nat i + 1)%coq_nat) = 1)%Re.
  have e1 := m1_sq (Nat.add (lmin m - 1)%coq_nat i + 1)%coq_nat; have r (a b : R) : (a * a = 1 -> b * b = 1 -> a * b * (a * b) = 1)%Re by move=> r1 r2; transitivity (a * a * (b * b))%Re; [ring|rewrite r1 r2; ring].
  by apply: r.
have [_ _ -> ->] := @blocks m k s d i; have eS : (lmin m + i)%N = S (Nat.add (lmin m - 1)%coq_nat i) by rewrite -plusE /lmin; lia.
rewrite eS; have mu pick : pick = TE \/ pick = TM -> (Rabs (entry pick (mieB exact_bessels d) (Nat.add (lmin m - 1)%coq_nat i) k) <= amp (S (Nat.add (lmin m - 1)%coq_nat i)) x2)%Re.
  by move=> hp; rewrite /mieB [c_2 _]/= h2 [c_ext _]/= hx; exact: (mie_up M (c_med c) e u hm k hk m2 rb _ pick hp (contrast_solid g2) hb hj).
split; apply: (Rle_trans _ _ _ (Rle_abs _)); rewrite ?Rabs_Ropp abs_sgn //; apply: mu; [by left|by right].
Qed.
Lemma weight_up i j : (i < n1 d m)%N -> (j < n2 d m)%N -> (weight (s_of m s) (s_of m s) (sgnZ m) (- sgnZ m) rt i j <= K * q ^ i * q ^ j)%Re.
Proof.
move=> hi hj; have [p1 p2 p3] := rate_positive; have [a1 a2] := p1 i hi; have [b1 b2] := p2 j hj; have [A1 A2] := amp_A hi; have [B1 B2] := amp_B hj.
have li : (1 <= Nat.add (lmin m) i)%coq_nat /\ (Nat.add (lmin m) i <= N)%coq_nat by move/ltP: hi; rewrite /n1 /d /truncated /= -?plusE /lmin; lia.
have lj : (1 <= Nat.add (lmin m) j)%coq_nat /\ (Nat.add (lmin m) j <= M)%coq_nat by move/ltP: hj; rewrite /n2 /d /truncated /= -?plusE /lmin; lia.
have hmm : (Z.abs m <= Z.of_nat (Nat.min (lmin m + i) (lmin m + j)))%Z by have [o0 _] := ho; rewrite -plusE /lmin; lia.
have [T1 T2] := trans_up (c_med c) e u N M (lmin m + i) (lmin m + j) m k (c_L c) hm li lj hmm hk hL th hth.
have [t0 _] := hth; have px := x_pos; have px1 := x1_pos; have px2 := x2_pos.
have TB := tbound_nonneg th m (lmin m + i) (lmin m + j) x t0 (proj1 li) (proj1 lj) px.
have E0 : (Rabs (vv (sgnZ m) (V0 rt) (V4 rt) i j) <= (1 + x) * tbound th m (lmin m + i) (lmin m + j) x)%Re.
  have sg := sgnZ_sq m; set w := V0 rt i j; have -> : vv (sgnZ m) (V0 rt) (V4 rt) i j = ((sgnZ m) * (w * exp 0))%Re by [].
  rewrite exp_0 Rmult_1_r abs_sgn //; have : (Rabs w <= tbound th m (lmin m + i) (lmin m + j) x)%Re by rewrite /w /rt /= hx; exact: T1.
  move: (tbound _ _ _ _ _) TB => T TB; nra.
have M0 : (Rabs (vv (- sgnZ m) (V2 rt) (V4 rt) i j) <= (1 + x) * tbound th m (lmin m + i) (lmin m + j) x)%Re.
  have sg : (- sgnZ m * - sgnZ m = 1)%Re by have := sgnZ_sq m; lra.
  set w := V2 rt i j; have -> : vv (- sgnZ m) (V2 rt) (V4 rt) i j = ((- sgnZ m) * (w * exp 0))%Re by [].
  rewrite exp_0 Rmult_1_r abs_sgn //; have : (Rabs w <= x * tbound th m (lmin m + i) (lmin m + j) x)%Re by rewrite /w /rt /= hx; exact: T2.
  move: (tbound _ _ _ _ _) TB => T TB; nra.
have up a b v := @term_up th m (lmin m + i) (lmin m + j) x1 x2 x a b v t0 (proj1 li) (proj1 lj) hmm px1 px2 px.
have -> : (K * q ^ i * q ^ j = 4 * (kfac th x1 x2 x * (x1 / x) * (x2 / x) * q ^ Nat.add (lmin m + i) (lmin m + j)))%Re.
  have -> : Nat.add (lmin m + i) (lmin m + j) = Nat.add (Nat.mul 2 (lmin m)) (Nat.add i j) by rewrite -plusE; lia.
  by rewrite /K -multE !pow_add; ring.
have u1 := up _ _ _ (conj a1 A1) (conj b1 B1) E0; have u2 := up _ _ _ (conj a1 A1) (conj b2 B2) M0; have u3 := up _ _ _ (conj a2 A2) (conj b1 B1) M0; have u4 := up _ _ _ (conj a2 A2) (conj b2 B2) E0.
have r (w1 w2 w3 w4 B : R) : (w1 <= B -> w2 <= B -> w3 <= B -> w4 <= B -> w1 + w2 + w3 + w4 <= 4 * B)%Re by lra.
exact: (r _ _ _ _ _ u1 u2 u3 u4).
Qed.
Lemma rate_trace : \tr (trip exact_bessels d m k) = box (n1 d m) (n2 d m) (weight (s_of m s) (s_of m s) (sgnZ m) (- sgnZ m) rt).
Proof. have hs := contrast_sq g1; exact: (trip_trace (@parity_rt exact_bessels d m k) (s_sq m hs) (s_sq m hs) (s_sq m hs) (sg_sq m) (sg_sq' m) rate_positive). Qed.
Lemma trace_reach : (\tr (trip exact_bessels d m k) <= reach th e u m k ra rb (c_L c))%Re.
Proof. rewrite rate_trace; exact: (box_le (Rlt_le _ _ K_pos) q_ok weight_up). Qed.
End Bounded.
