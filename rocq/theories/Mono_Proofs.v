(** * Comparison of round-trip operators whose entries dominate each other *)
From Coq Require Import Reals.
From Coq Require Import List Lia Lra ZArith.
From mathcomp Require Import all_ssreflect ssralg ssrnum fingroup perm matrix mxalgebra poly mxpoly.
From Verif Require Import Base RStruct Lin_Model Lin_Spec Bal_Proofs Lin_Proofs Trip_Proofs Lin_Proofs2 RT_Proofs4 RT_Proofs6 RT_Proofs8 RT_Props3 Exp_Proofs Exp_Proofs2.
Set Implicit Arguments.
Unset Strict Implicit.
Import GRing.Theory Num.Theory.
Local Open Scope ring_scope.
Delimit Scope R_scope with Re.

(** ** matrices with non-negative entries *)
Definition dom p q (A B : 'M[R]_(p, q)) : Prop := forall i j, (0 <= A i j <= B i j)%Re.
Lemma dom_mul p q r (A A' : 'M[R]_(p, q)) (B B' : 'M[R]_(q, r)) : dom A A' -> dom B B' -> dom (A *m B) (A' *m B').
Proof.
move=> h1 h2 i j; rewrite !mxE; split.
- by apply: sum_nonneg => s; apply: Rmult_le_pos; [have [] := h1 i s|have [] := h2 s j].
- by apply: sum_le => s; have [a0 a1] := h1 i s; have [b0 b1] := h2 s j; apply: Rmult_le_compat.
Qed.
Lemma dom_tr p q (A B : 'M[R]_(p, q)) : dom A B -> dom A^T B^T.
Proof. by move=> h i j; rewrite !mxE. Qed.
Lemma dom_1 p : dom (1%:M : 'M[R]_p) 1%:M.
Proof. by move=> i j; rewrite !mxE; case: (i == j); rewrite ?mulr1n ?mulr0n ?oE ?zE; lra. Qed.
Lemma dom_pow p (A B : 'M[R]_p) j : dom A B -> dom (mxpow A j) (mxpow B j).
Proof. by move=> h; elim: j => [|j IH]; [exact: dom_1|rewrite !mxpowS; exact: dom_mul]. Qed.
Lemma dom_trace p (A B : 'M[R]_p) : dom A B -> (\tr A <= \tr B)%Re.
Proof. by move=> h; apply: sum_le => i; have [] := h i i. Qed.
Section Compare.
Context (p q : nat) (A B : 'M[R]_(p, q)) (h : dom A B).
Let Aa := A *m A^T.
Let Bb := B *m B^T.
Lemma dom_gram : dom Aa Bb. Proof. by apply: dom_mul => //; apply: dom_tr. Qed.
Lemma gram_traces j : (\tr (mxpow Aa j) <= \tr (mxpow Bb j))%Re.
Proof. by apply: dom_trace; apply: dom_pow; apply: dom_gram. Qed.
(** strictly, where one entry is strictly larger *)
Lemma gram_strict i s : (A i s < B i s)%Re -> (\tr Aa < \tr Bb)%Re.
Proof.
move=> hs; have key F : \tr (F *m F^T) = F i s * F i s + (\sum_(j | j != s) F i j * F i j + \sum_(k | k != i) \sum_j F k j * F k j) :> R.
  by rewrite tr_gram (bigD1 i) //= (bigD1 s) //= -addrA.
rewrite /Aa /Bb !key; have [a0 a1] := h i s.
apply: Rplus_lt_le_compat; first by apply: Rmult_le_0_lt_compat.
have sq k j : (A k j * A k j <= B k j * B k j)%Re by have [b0 b1] := h k j; apply: Rmult_le_compat.
have le (I : finType) (P : pred I) (F G : I -> R) : (forall x, (F x <= G x)%Re) -> (\sum_(x | P x) F x <= \sum_(x | P x) G x)%Re.
  by move=> hh; rewrite !(big_mkcond P); apply: sum_le => x; case: (P x) => //; apply: Rle_refl.
by apply: Rplus_le_compat; [apply: le => j; exact: sq|apply: le => k; apply: sum_le => j; exact: sq].
Qed.
Lemma partial_gap N : (\tr Bb - \tr Aa <= rt_partial Bb N.+1 - rt_partial Aa N.+1)%Re.
Proof.
elim: N => [|N IH].
  rewrite /rt_partial !big_nat1 /mxpow /= !mulmx1.
  by rewrite /Rdiv Rinv_1 !Rmult_1_r; apply: Rle_refl.
have e n (C : 'M[R]_n) : rt_partial C N.+2 = (rt_partial C N.+1 + \tr (mxpow C N.+2) / INR N.+2)%Re.
  by rewrite /rt_partial big_nat_recr.
rewrite !e; have h1 := gram_traces N.+2; have h2 : (0 < INR N.+2)%Re by apply: lt_0_INR; lia.
have h3 : (\tr (mxpow Aa N.+2) / INR N.+2 <= \tr (mxpow Bb N.+2) / INR N.+2)%Re.
  by apply: Rmult_le_compat_r => //; left; apply: Rinv_0_lt_compat.
move: IH h3; set a := (_ / _)%Re; set b := (_ / _)%Re; lra.
Qed.
Lemma lndet_gap : (\tr Bb < 1)%Re -> [/\ (0 < \det (1%:M - Bb))%Re, (0 < \det (1%:M - Aa))%Re &
  (ln (\det (1%:M - Bb)) + (\tr Bb - \tr Aa) <= ln (\det (1%:M - Aa)))%Re].
Proof.
move=> hb; have ab : (\tr Aa <= \tr Bb)%Re by have := gram_traces 1; rewrite /mxpow /= !mulmx1.
have ha : (\tr Aa < 1)%Re by lra.
have [_ [p1 _]] := psd_small (psd_gram B) hb; have [_ [p2 _]] := psd_small (psd_gram A) ha.
rewrite -/Bb in p1; rewrite -/Aa in p2.
have [_ d1] := one_minus hb p1; have [_ d2] := one_minus ha p2; split=> //.
have a0 : (0 <= \tr Aa)%Re by exact: tr_gram_nonneg.
have pw N : (0 <= \tr (mxpow Aa N.+1) <= \tr Aa)%Re.
  elim: N => [|N IH]; first by rewrite /mxpow /= mulmx1; lra.
  have [q1 q2] := tr_pow_le A N.+1; rewrite -/Aa in q1 q2; split=> //; nra.
apply: Rnot_lt_le => hlt; set D := (ln (\det (1%:M - Bb)) + (\tr Bb - \tr Aa) - ln (\det (1%:M - Aa)))%Re.
have Dp : (0 < D)%Re by rewrite /D; lra.
set K := (\tr Aa / (1 - \tr Aa))%Re.
have K0 : (0 <= K)%Re by apply: Rmult_le_pos => //; left; apply: Rinv_0_lt_compat; lra.
have [N hN] : exists N, (K / D < INR N)%Re.
  have [u1 _] := archimed (K / D); have z0 : (0 <= up (K / D))%Z.
    by apply: le_IZR; apply: Rle_trans (Rlt_le _ _ u1); apply: Rmult_le_pos => //; left; apply: Rinv_0_lt_compat.
  by exists (Z.to_nat (up (K / D))); rewrite INR_IZR_INZ ZArith.Znat.Z2Nat.id.
have Np : (0 < INR N.+2)%Re by apply: lt_0_INR; lia.
have [e1 _] := expansion hb N.+1; have [_ e2] := expansion ha N.+1; rewrite -/Aa in e2; rewrite -/Bb in e1.
have g := partial_gap N; have [_ w] := pw N.+1.
have r : (\tr (mxpow Aa N.+2) / (1 - \tr Aa) / INR N.+2 < D)%Re.
  apply: (Rle_lt_trans _ (K / INR N.+2)%Re).
    apply: Rmult_le_compat_r; first by left; apply: Rinv_0_lt_compat.
    by apply: Rmult_le_compat_r => //; left; apply: Rinv_0_lt_compat; lra.
  apply: (Rmult_lt_reg_r (INR N.+2)) => //; have -> : (K / INR N.+2 * INR N.+2 = K)%Re by field; lra.
  have hk := Rmult_lt_compat_r D _ _ Dp hN; have ek : (K / D * D = K)%Re by field; lra.
  rewrite ek in hk; rewrite !S_INR; move: hk Dp; move: (K) (D) => K1 D1 hk Dp; lra.
by move: r; rewrite /D; set x := (_ / _ / _)%Re in e2 *; lra.
Qed.
End Compare.
