(** * How far apart the determinants of two dominated Gram matrices are *)
From Coq Require Import Reals.
From Coq Require Import List Lia Lra ZArith.
From mathcomp Require Import all_ssreflect ssralg ssrnum fingroup perm matrix mxalgebra poly mxpoly.
From Verif Require Import Base RStruct Lin_Model Lin_Spec Bal_Proofs Lin_Proofs Trip_Proofs Lin_Proofs2 RT_Proofs4 RT_Proofs6 RT_Proofs8 RT_Props3 Exp_Proofs Exp_Proofs2 Mono_Proofs Mono_Proofs2.
Set Implicit Arguments.
Unset Strict Implicit.
Import GRing.Theory Num.Theory.
Local Open Scope ring_scope.
Delimit Scope R_scope with Re.

Lemma frob p q (X Y : 'M[R]_(p, q)) : (\tr (X *m Y^T) * \tr (X *m Y^T) <= \tr (X *m X^T) * \tr (Y *m Y^T))%Re.
Proof.
apply: quad_disc; first exact: tr_gram_nonneg.
move=> t; have := tr_gram_nonneg (t *: X + Y).
have -> // : \tr ((t *: X + Y) *m (t *: X + Y)^T) = (\tr (X *m X^T) * t * t + 2 * t * \tr (X *m Y^T) + \tr (Y *m Y^T))%Re.
have e : \tr (Y *m X^T) = \tr (X *m Y^T) by rewrite -mxtrace_tr trmx_mul trmxK.
rewrite linearD linearZ /= mulmxDl !mulmxDr -!scalemxAl -!scalemxAr !mxtraceD !mxtraceZ e.
have r (u v w : R) : (t * (t * u) + t * v + (t * v + w) = u * t * t + 2 * t * v + w)%Re by ring.
exact: r.
Qed.
Definition nn p q (A : 'M[R]_(p, q)) : Prop := forall i j, (0 <= A i j)%Re.
Lemma nn_mul p q r (A : 'M[R]_(p, q)) (B : 'M[R]_(q, r)) : nn A -> nn B -> nn (A *m B).
Proof. by move=> h1 h2 i j; rewrite mxE; apply: sum_nonneg => s; apply: Rmult_le_pos. Qed.
Lemma nn_tr p q (A : 'M[R]_(p, q)) : nn A -> nn A^T.
Proof. by move=> h i j; rewrite mxE. Qed.
Lemma nn_dom p q (A B : 'M[R]_(p, q)) : dom A B -> [/\ nn A, nn B & nn (B - A)].
Proof.
move=> h; split=> i j; have [h1 h2] := h i j; [exact: h1|exact: (Rle_trans _ _ _ h1 h2)|].
rewrite !mxE; have r (x y : R) : (x <= y)%Re -> (0 <= y - x)%Re by lra.
exact: r.
Qed.
Lemma nn_trace p (A : 'M[R]_p) : nn A -> (0 <= \tr A)%Re.
Proof. by move=> h; apply: sum_nonneg => i. Qed.
Lemma mxpowD p (A : 'M[R]_p) a b : mxpow A (a + b) = mxpow A a *m mxpow A b.
Proof. by elim: a => [|a IH]; [rewrite /mxpow /= mul1mx|rewrite addSn !mxpowS IH mulmxA]. Qed.
Lemma trB p (A B : 'M[R]_p) : \tr (A - B) = (\tr A - \tr B)%Re.
Proof. exact: linearB. Qed.

Section Upper.
Context (p q : nat) (A B : 'M[R]_(p, q)) (h : dom A B).
Let Aa := A *m A^T.
Let Bb := B *m B^T.
Let t := \tr Bb.
Let d := (\tr Bb - \tr Aa)%Re.
Let E := B - A.
Lemma d_pos : (0 <= d)%Re.
Proof. by have := gram_traces h 1; rewrite /mxpow /= !mulmx1 -/Aa -/Bb /d; lra. Qed.
Lemma E_frob : (\tr (E *m E^T) <= d)%Re.
Proof.
rewrite /d /Aa /Bb !tr_gram; have -> : (\sum_i \sum_j B i j * B i j - \sum_i \sum_j A i j * A i j)%Re = \sum_i \sum_j (B i j * B i j - A i j * A i j).
  by rewrite RminusE -sumrB; apply: eq_bigr => i _; rewrite sumrB.
apply: sum_le => i; apply: sum_le => j; rewrite /E !mxE; have [h1 h2] := h i j.
have r (x y : R) : (0 <= x <= y)%Re -> ((y - x) * (y - x) <= y * y - x * x)%Re by move=> [r1 r2]; nra.
exact: r.
Qed.
Lemma tr_pow_pow n : (0 <= \tr (mxpow Bb n.+1) <= t ^ n.+1)%Re.
Proof.
have t0 : (0 <= t)%Re by exact: tr_gram_nonneg.
elim: n => [|n [i1 i2]]; first by rewrite /mxpow /= mulmx1 -/t Rmult_1_r; split=> //; right.
have [q1 q2] := tr_pow_le B n.+1; rewrite -/Bb -/t in q1 q2; split=> //.
have -> : (t ^ n.+2 = t * t ^ n.+1)%Re by [].
by apply: (Rle_trans _ _ _ q2); apply: Rmult_le_compat_l.
Qed.
Lemma nn_pow n : nn (mxpow Bb n).
Proof. by move=> i j; have [h1 h2] := dom_pow n (dom_gram h) i j; rewrite -/Bb in h2; lra. Qed.
Lemma Bb_sym n : (mxpow Bb n)^T = mxpow Bb n.
Proof. by rewrite mxpow_tr trmx_mul trmxK. Qed.
(** the derivative of the trace of a power *)
Lemma step n k : (\tr (mxpow Bb n.+1 *m mxpow Bb k) - \tr (mxpow Aa n.+1 *m mxpow Bb k) <= INR n.+1 * \tr (mxpow Bb (n + k) *m (Bb - Aa)))%Re.
Proof.
have [g1 g2 g3] := nn_dom (dom_gram h); rewrite -/Aa -/Bb in g1 g2 g3.
elim: n k => [|n IH] k.
  have o r (C : 'M[R]_r) : mxpow C 1 = C by rewrite /mxpow /= mulmx1.
  by rewrite !o add0n mulmxBr trB [\tr (Bb *m _)]mxtrace_mulC [\tr (Aa *m _)]mxtrace_mulC Rmult_1_l; right.
have [_ _ pn] := nn_dom (dom_pow n.+1 (dom_gram h)); rewrite -/Aa -/Bb in pn.
have := nn_trace (nn_mul pn (nn_mul g3 (nn_pow k))).
have -> : \tr ((mxpow Bb n.+1 - mxpow Aa n.+1) *m ((Bb - Aa) *m mxpow Bb k)) =
  ((\tr (mxpow Bb n.+1 *m mxpow Bb k.+1) - \tr (mxpow Aa n.+1 *m mxpow Bb k.+1)) - (\tr (mxpow Bb n.+1 *m (Aa *m mxpow Bb k)) - \tr (mxpow Aa n.+2 *m mxpow Bb k)))%Re.
  rewrite [(Bb - Aa) *m _]mulmxBl mulmxBr !mulmxBl !trB -!mxpowS [mxpow Aa n.+2]mxpowSr -[in X in _ = X](mulmxA _ Aa).
  have r (x y z w : R) : (x - y - (z - w) = x - y - (z - w))%Re by [].
  exact: r.
have := IH k.+1; rewrite addnS -addSn.
have -> : \tr (mxpow Bb n.+1 *m mxpow Bb k.+1) = \tr (mxpow Bb n.+2 *m mxpow Bb k) by rewrite -!mxpowD addnS addSn.
have -> : \tr (mxpow Bb n.+1 *m (Aa *m mxpow Bb k)) = (\tr (mxpow Bb n.+2 *m mxpow Bb k) - \tr (mxpow Bb (n.+1 + k) *m (Bb - Aa)))%Re.
  have u : \tr (mxpow Bb n.+1 *m (Aa *m mxpow Bb k)) = \tr (mxpow Bb (n.+1 + k) *m Aa).
    by rewrite mxtrace_mulC -mulmxA -mxpowD mxtrace_mulC addnC.
  have v : mxpow Bb n.+2 *m mxpow Bb k = mxpow Bb (n.+1 + k) *m Bb by rewrite -mxpowD -mxpowSr addSn.
  rewrite mulmxBr trB u v; have r (x y : R) : (x = y - (y - x))%Re by ring.
  exact: r.
rewrite [INR n.+2]S_INR; move: (\tr (mxpow Aa n.+2 *m _)) (\tr (mxpow Bb n.+2 *m _)) (\tr (mxpow Aa n.+1 *m _)) (\tr (mxpow Bb (n.+1 + k) *m _)) => x y z w; lra.
Qed.
Lemma slope n : (\tr (mxpow Bb n *m (Bb - Aa)) <= 2 * (t ^ n * sqrt (t * d)))%Re.
Proof.
have t0 : (0 <= t)%Re by exact: tr_gram_nonneg.
have [g1 g2 g3] := nn_dom h; rewrite -/E in g3.
pose X := mxpow Bb n *m B.
have xx : \tr (X *m X^T) = \tr (mxpow Bb (n + n).+1) by rewrite /X trmx_mul Bb_sym mulmxA -[_ *m B *m B^T]mulmxA -/Bb -mxpowSr -mxpowD addSn.
have xe : (\tr (X *m E^T) <= t ^ n * sqrt (t * d))%Re.
  have x0 : (0 <= \tr (X *m E^T))%Re by apply: nn_trace; apply: nn_mul; [apply: nn_mul; [exact: nn_pow|exact: g2]|exact: nn_tr].
  have f := frob X E; rewrite xx in f; have [u1 u2] := tr_pow_pow (n + n); have ef := E_frob; have d0 := d_pos; have e0 := tr_gram_nonneg E.
  have tn : (0 <= t ^ n)%Re by exact: pow_le.
  have td : (0 <= t * d)%Re by apply: Rmult_le_pos.
  have s0 := sqrt_pos (t * d); have ss := sqrt_sqrt _ td.
  apply: Rsqr_incr_0_var; last by apply: Rmult_le_pos.
  rewrite /Rsqr; apply: (Rle_trans _ _ _ f).
  apply: (Rle_trans _ (t ^ (n + n).+1 * d)%Re); first by apply: Rmult_le_compat.
  have -> : (t ^ n * sqrt (t * d) * (t ^ n * sqrt (t * d)) = t ^ n * t ^ n * (sqrt (t * d) * sqrt (t * d)))%Re by ring.
  rewrite ss; have -> : (t ^ (n + n).+1 = t * (t ^ n * t ^ n))%Re by rewrite -pow_add.
  by right; ring.
have e1 : Bb - Aa = E *m B^T + A *m E^T.
  by rewrite /E mulmxBl linearB /= mulmxBr addrA subrK.
have e2 : \tr (mxpow Bb n *m (E *m B^T)) = \tr (X *m E^T).
  by rewrite -mxtrace_tr !trmx_mul trmxK Bb_sym /X mxtrace_mulC mulmxA.
have e3 : (\tr (mxpow Bb n *m (A *m E^T)) <= \tr (X *m E^T))%Re.
  have := nn_trace (nn_mul (nn_pow n) (nn_mul g3 (nn_tr g3))).
  have -> : mxpow Bb n *m (E *m E^T) = X *m E^T - mxpow Bb n *m (A *m E^T) by rewrite /X {1}/E mulmxBl mulmxBr mulmxA.
  rewrite trB; move: (\tr (X *m _)) (\tr (mxpow Bb n *m _)) => x y; lra.
rewrite e1 mulmxDr mxtraceD e2.
have r (x y z : R) : (x <= z -> y <= x -> x + y <= 2 * z)%Re by lra.
exact: r.
Qed.
Lemma partial_up N : (t < 1)%Re -> (rt_partial Bb N - rt_partial Aa N <= 2 * sqrt (t * d) / (1 - t))%Re.
Proof.
move=> t1; have t0 : (0 <= t)%Re by exact: tr_gram_nonneg.
have s0 := sqrt_pos (t * d); have i0 : (0 < / (1 - t))%Re by apply: Rinv_0_lt_compat; lra.
suff : (rt_partial Bb N - rt_partial Aa N <= 2 * sqrt (t * d) * ((1 - t ^ N) / (1 - t)))%Re.
  have tn : (0 <= t ^ N)%Re by exact: pow_le.
  have : (0 <= 2 * sqrt (t * d) * (t ^ N / (1 - t)))%Re by apply: Rmult_le_pos; [lra|apply: Rmult_le_pos; lra].
  rewrite /Rdiv; lra.
elim: N => [|N IH].
  have -> : (2 * sqrt (t * d) * ((1 - t ^ 0) / (1 - t)) = 0)%Re by rewrite /=; field; lra.
  rewrite /rt_partial !big_nil; have r : (0 - 0 <= 0)%Re by lra.
  exact: r.
have e n (C : 'M[R]_n) : rt_partial C N.+1 = (rt_partial C N + \tr (mxpow C N.+1) / INR N.+1)%Re.
  by rewrite /rt_partial big_nat_recr.
rewrite !e; have s := step N 0; rewrite addn0 [mxpow Bb 0]/mxpow /= !mulmx1 in s; have sl := slope N.
have Np : (0 < INR N.+1)%Re by apply: lt_0_INR; lia.
have key : (\tr (mxpow Bb N.+1) / INR N.+1 - \tr (mxpow Aa N.+1) / INR N.+1 <= 2 * (t ^ N * sqrt (t * d)))%Re.
  apply: (Rmult_le_reg_r (INR N.+1)) => //.
  have -> : ((\tr (mxpow Bb N.+1) / INR N.+1 - \tr (mxpow Aa N.+1) / INR N.+1) * INR N.+1 = \tr (mxpow Bb N.+1) - \tr (mxpow Aa N.+1))%Re by field; lra.
  apply: (Rle_trans _ _ _ s); rewrite Rmult_comm; apply: Rmult_le_compat_r; [exact: Rlt_le|exact: sl].
have -> : (2 * sqrt (t * d) * ((1 - t ^ N.+1) / (1 - t)) = 2 * sqrt (t * d) * ((1 - t ^ N) / (1 - t)) + 2 * (t ^ N * sqrt (t * d)))%Re by rewrite /=; field; lra.
move: IH key; set a := (_ / _)%Re; set b := (_ / _)%Re; lra.
Qed.
Lemma lndet_up : (t < 1)%Re -> (ln (\det (1%:M - Aa)) <= ln (\det (1%:M - Bb)) + 2 * sqrt (t * d) / (1 - t))%Re.
Proof.
move=> hb; have ab : (\tr Aa <= \tr Bb)%Re by have := gram_traces h 1; rewrite /mxpow /= !mulmx1.
have ha : (\tr Aa < 1)%Re by move: hb; rewrite /t; lra.
apply: Rnot_lt_le => hlt; set S := (2 * sqrt (t * d) / (1 - t))%Re in hlt.
set D := (ln (\det (1%:M - Aa)) - (ln (\det (1%:M - Bb)) + S))%Re.
have Dp : (0 < D)%Re by rewrite /D; lra.
set K := (t / (1 - t))%Re; have t0 : (0 <= t)%Re by exact: tr_gram_nonneg.
have K0 : (0 <= K)%Re by apply: Rmult_le_pos => //; left; apply: Rinv_0_lt_compat; lra.
have [N hN] : exists N, (K / D < INR N)%Re.
  have [u1 _] := archimed (K / D); have z0 : (0 <= up (K / D))%Z.
    by apply: le_IZR; apply: Rle_trans (Rlt_le _ _ u1); apply: Rmult_le_pos => //; left; apply: Rinv_0_lt_compat.
  by exists (Z.to_nat (up (K / D))); rewrite INR_IZR_INZ ZArith.Znat.Z2Nat.id.
have Np : (0 < INR N.+1)%Re by apply: lt_0_INR; lia.
have [_ e1] := expansion hb N; have [e2 _] := expansion ha N; rewrite -/Aa in e2; rewrite -/Bb -/t in e1.
have g := partial_up N hb; rewrite -/S in g; have [w0 w] := tr_pow_pow N.
have w1 : (t ^ N.+1 <= t)%Re.
  have -> : (t ^ N.+1 = t * t ^ N)%Re by [].
  have : (t ^ N <= 1)%Re by rewrite -(pow1 N); apply: pow_incr; lra.
  nra.
have r : (\tr (mxpow Bb N.+1) / (1 - t) / INR N.+1 < D)%Re.
  apply: (Rle_lt_trans _ (K / INR N.+1)%Re).
    apply: Rmult_le_compat_r; first by left; apply: Rinv_0_lt_compat.
    by apply: Rmult_le_compat_r; [left; apply: Rinv_0_lt_compat; lra|lra].
  apply: (Rmult_lt_reg_r (INR N.+1)) => //; have -> : (K / INR N.+1 * INR N.+1 = K)%Re by field; lra.
  have hk := Rmult_lt_compat_r D _ _ Dp hN; have ek : (K / D * D = K)%Re by field; lra.
  rewrite ek in hk; rewrite !S_INR; move: hk Dp; move: (K) (D) => K1 D1 hk Dp; lra.
by move: r; rewrite /D; set x := (_ / _ / _)%Re in e1 *; lra.
Qed.
End Upper.
