(** * An upper bound of det (1 + A) for positive semidefinite A *)
From Coq Require Import Reals.
From Coq Require Import List Lia Lra ZArith.
From mathcomp Require Import all_ssreflect ssralg ssrnum fingroup perm matrix mxalgebra poly mxpoly.
From Verif Require Import Base RStruct Lin_Spec RT_Proofs6.
Set Implicit Arguments.
Unset Strict Implicit.
Import GRing.Theory.
Local Open Scope ring_scope.
Delimit Scope R_scope with Re.

Lemma psd_plus_up n (A : 'M[R]_n) : psd A -> (0 < \det (1%:M + A) <= exp (\tr A))%Re.
Proof.
elim: n A => [|n IH] A hA.
  by rewrite /mxtrace !big_ord0 !det_mx00 !zE !oE exp_0; lra.
have [a [b [C eA]]] := @psd_split n A hA; move: hA; rewrite {}eA {A} => hA.
have [hd ->] := diag_block a b C.
have a0 := step_a hA; have C0 i := step_diag hA i; have trC0 : (0 <= \tr C)%Re by apply: sum_nonneg => i; apply: C0.
have n1a : (1 + a)%Re <> 0%Re by apply: Rgt_not_eq; lra.
have /eqP n1a' := n1a.
pose A' := C + (- (1 + a)^-1) *: (b^T *m b).
have ei : (1 + a)^-1 = (/ (1 + a))%Re by rewrite -RinvE.
have ip : (0 < / (1 + a))%Re by apply: Rinv_0_lt_compat; lra.
have ex : ((1 + a) * / (1 + a) = 1)%Re by apply: Rinv_r; lra.
have hA' : psd A'.
  split; first by rewrite /A' linearD linearZ /= trmx_mul trmxK (step_sym hA).
  move=> x; rewrite /A' qf_lin qf_rank1 ei -RoppE; have := step_b hA x; have := step_C hA x.
  move: (_ * _)%Re (qf C x) => w q hq hw.
  have : (/ (1 + a) * w <= / (1 + a) * ((1 + a) * q))%Re by apply: Rmult_le_compat_l; nra.
  by rewrite -Rmult_assoc (Rmult_comm _ (1 + a)%Re) ex; lra.
have trA' : \tr A' = (\tr C - / (1 + a) * \sum_i b ord0 i * b ord0 i)%Re by rewrite /A' linearD linearZ /= tr_rank1 ei mulNr.
have hs : (0 <= \sum_i b ord0 i * b ord0 i)%Re by apply: sum_nonneg => i; apply: Rle_0_sqr.
have [p up] := IH A' hA'.
have -> : \det (1%:M + (block_mx a%:M b b^T C : 'M_(1 + n))) = ((1 + a) * \det (1%:M + A'))%Re.
  have -> : 1%:M + (block_mx a%:M b b^T C : 'M_(1 + n)) = block_mx (1 + a)%:M b b^T (1%:M + C).
    rewrite [X in X + _]scalar_mx_block add_block_mx !add0r; congr block_mx.
    by rewrite raddfD /=.
  by rewrite det_schur // /A' scaleNr addrA.
split; first by apply: Rmult_lt_0_compat; lra.
rewrite -RplusE exp_plus; apply: Rmult_le_compat; [lra|lra|exact: exp_ineq1_le|].
apply: (Rle_trans _ _ _ up); have le : (\tr A' <= \tr C)%Re by rewrite trA'; have := Rmult_le_pos _ _ (Rlt_le _ _ ip) hs; lra.
by case: le => [lt|->]; [left; apply: exp_increasing|right].
Qed.
