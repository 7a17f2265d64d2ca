(** * The round trip with one order: two by two matrices *)
From Coq Require Import Reals.
From Coq Require Import List Lia Lra ZArith.
From mathcomp Require Import all_ssreflect ssralg fingroup perm matrix mxalgebra poly mxpoly.
From Verif Require Import Base RStruct Mat_Model Mat_Spec Mat_Proofs Bessel_Model Bessel_Spec Scat_Model Scat_Spec Scat_Proofs Scat_Proofs7 Scat_Proofs8 Scat_Proofs9 Trans_Model Trans_Spec Trans_Proofs3 Lin_Model Lin_Spec RT_Model RT_Spec RT_Spec2 RT_Proofs RT_Props2
  Dip_Spec Dip_Proofs Dip_Proofs2.
Set Implicit Arguments.
Unset Strict Implicit.
Import GRing.Theory.
Local Open Scope ring_scope.
Delimit Scope R_scope with Re.

Lemma det_two (A : 'M[R]_(1 + 1)) : \det A = (A (lshift 1 ord0) (lshift 1 ord0) * A (rshift 1 ord0) (rshift 1 ord0) - A (lshift 1 ord0) (rshift 1 ord0) * A (rshift 1 ord0) (lshift 1 ord0))%Re.
Proof.
have -> : lshift 1 ord0 = ord0 :> 'I_(1 + 1) by apply/val_inj.
have -> : rshift 1 ord0 = lift ord0 ord0 :> 'I_(1 + 1) by apply/val_inj.
rewrite (expand_det_row A ord0) !big_ord_recl big_ord0 /cofactor !det_mx11 !mxE /=.
have -> : lift (lift ord0 ord0) ord0 = ord0 :> 'I_(1 + 1) by apply/val_inj.
rewrite /bump /= expr0 expr1 addr0 mul1r mulN1r mulrN; reflexivity.
Qed.
Lemma one_order n ns (e : roundtrip) : n = 1%N -> ns = 1%N -> (forall i, a2 e i = 0%Re) -> (forall i, b2 e i = 0%Re) -> (forall i s, V4 e i s = 0%Re) ->
  let a := aTE e 0%N in let a' := aTM e 0%N in let b := bTE e 0%N in let b' := bTM e 0%N in
  let v := V0 e 0%N 0%N in let v' := V1 e 0%N 0%N in let w := V2 e 0%N 0%N in let w' := V3 e 0%N 0%N in
  \det (1%:M - round_trip n ns e) = (1 - (a * (b * v * v' + b' * w * w') + a' * (b * w * w' + b' * v * v')) + a * a' * b * b' * ((v * v - w * w) * (v' * v' - w' * w')))%Re.
Proof.
move=> -> -> ha hb hv a a' b b' v v' w w'.
have E : round_trip 1 1 e = block_mx (a * (b * v * v' + b' * w * w'))%Re%:M (a * (v * b * w' + w * b' * v'))%Re%:M (a' * (w * b * v' + v * b' * w'))%Re%:M (a' * (b * w * w' + b' * v * v'))%Re%:M.
  rewrite /round_trip /T1 /V12 /T2 /V21 !mulmx_block !mul0mx !mulmx0 !addr0 !add0r.
  congr block_mx; apply/matrixP => i j; rewrite !ord1 !mxE !big_ord_recl !big_ord0 !mxE !big_ord_recl !big_ord0 !mxE !big_ord_recl !big_ord0 !mxE /= ?ha ?hb ?hv exp_0 ?addr0 ?mulr1n ?mulr0n -?RplusE -?RmultE; rewrite /a /a' /b /b' /v /v' /w /w'; ring.
rewrite E -[1%:M]scalar_mx_block || rewrite E (scalar_mx_block 1 1 1).
rewrite opp_block_mx add_block_mx det_two block_mxEul block_mxEdr block_mxEur block_mxEdl !mxE /= !mulr1n -?RplusE -?RoppE.
by change (1 : R) with 1%Re; change (0 : R) with 0%Re; rewrite -?RmultE; ring.
Qed.
