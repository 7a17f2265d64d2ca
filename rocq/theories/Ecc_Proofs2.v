(** * Round trips inside a cavity: the same determinant with all signs removed *)
From Coq Require Import Reals.
From Coq Require Import List Lia Lra ZArith.
From mathcomp Require Import all_ssreflect ssralg ssrnum fingroup perm matrix mxalgebra poly mxpoly.
From Verif Require Import Base RStruct Bessel_Model Scat_Model Scat_Spec Scat_Proofs7 Scat_Proofs9 Trans_Model Trans_Spec Lin_Model Lin_Spec Bal_Proofs Lin_Proofs Trip_Proofs Lin_Proofs2
  RT_Model RT_Spec RT_Spec2 RT_Proofs RT_Proofs2 RT_Proofs3 RT_Proofs4 RT_Proofs6 RT_Proofs7 RT_Proofs8 RT_Proofs9 RT_Proofs10 RT_Props RT_Props2 RT_Props3 Ecc_Spec Ecc_Proofs.
Set Implicit Arguments.
Unset Strict Implicit.
Import GRing.Theory.
Local Open Scope ring_scope.
Delimit Scope R_scope with Re.

Section Run.
Context (bes : bessel_fun) (hb : table bes).
Context (mieb : list R -> nat -> Z -> res (list (list R) * list (list R))) (c : config) (m : Z) (k : R) (A B : coefs) (e u : R -> R).
Context (EA : mieA mieb c [:: k] = Val A) (EB : mieB mieb c [:: k] = Val B) (hmed : has (c_med c) e u).
Context (hL : (0 < c_L c)%Re) (hk : (0 < k)%Re) (hn : (0 < n1 c m)%N) (hs : n1 c m = 1%N \/ (0 < n2 c m)%N).
Let U := round_trip (n1 c m) (n2 c m) (rt_gen mieb bes c m k).
Lemma gen_run : exists M g, [/\ rt_matrix mieb bes c m [:: k] = Val M, @is_arr 1 (n1 c m + n1 c m) (n1 c m + n1 c m) M (fun=> g), similar U g & forall i, g i i = U i i].
Proof.
have [E [eE hE]] := elements_gen bes hb mieb c m k A B e u EA EB hmed hL hk.
rewrite /rt_matrix /rt_blocks eE /= scale_ok //=.
have [M [g [eM hM hg]]] := supermatrix_round_trip 1 (n1 c m) (n2 c m) E.
have [s d] := hg 0%N isT.
exists M, (g 0%N); split.
- by move: eM; rewrite /supermatrix /block_arrays /shape3_eqb /= !Nat.eqb_refl /= => ->.
- by case: hM => hd hr hc h; split=> // -[|//] _; apply: h.
- by rewrite /U -(same_round_trip hE).
- by move=> i; rewrite /U -(same_round_trip hE).
Qed.
Lemma gen_lndet_run conv : (conv < 1)%Re -> exists N, forall fuel, (N <= fuel)%N ->
  rt_lndet mieb bes c fuel conv m [:: k] = Some (Val [:: ln_abs_det (1%:M - U)]).
Proof.
move=> hc; have [M [g [eM hM s _]]] := gen_run; have [N hN] := balanced_slogdet_total hc hM.
exists N => fuel hf; rewrite /rt_lndet eM.
case: (balanced_slogdet_spec fuel conv hM) => [h|->]; first by have := hN fuel hf; rewrite h.
by rewrite /= /ln_abs_det (similar_det (similar_1m s)).
Qed.
End Run.

(** the round-trip operator with the exact translation functions *)
Definition etrip (mieb : list R -> nat -> Z -> res (list (list R) * list (list R))) (c : config) (m : Z) (k : R) : 'M[R]_(n1 c m + n1 c m) := round_trip (n1 c m) (n2 c m) (rt_gen mieb exact_trans c m k).
Lemma elndet_total mieb c m k A B e u conv : mieA mieb c [:: k] = Val A -> mieB mieb c [:: k] = Val B -> has (c_med c) e u -> (0 < c_L c)%Re -> (0 < k)%Re ->
  some_orders c m -> (conv < 1)%Re ->
  exists N, forall fuel, (N <= fuel)%N -> rt_lndet mieb exact_trans c fuel conv m [:: k] = Some (Val [:: ln_abs_det (1%:M - etrip mieb c m k)]).
Proof.
move=> eA eB hm hL hk [_ [h1 h2]] hc.
have hn : (0 < n1 c m)%N by rewrite /n1 /lmin; apply/ltP; lia.
have hs : n1 c m = 1%N \/ (0 < n2 c m)%N by right; rewrite /n2 /lmin; apply/ltP; lia.
exact (gen_lndet_run table_exact eA eB hm hL hk hn hs hc).
Qed.

(** ** all translation coefficients multiplied by (-1)^(l1+l2) *)
Definition flip (e : roundtrip) : roundtrip :=
  let f (V : nat -> nat -> R) i s := (-1) ^+ (i + s) * V i s in
  {| aTE := aTE e; aTM := aTM e; a2 := a2 e; bTE := bTE e; bTM := bTM e; b2 := b2 e; V0 := f (V0 e); V1 := f (V1 e); V2 := f (V2 e); V3 := f (V3 e); V4 := V4 e |}.
Definition DD n : 'M[R]_(n + n) := block_mx (altd n) 0 0 (altd n).
Lemma DD_sq n : DD n *m DD n = 1%:M.
Proof. by rewrite mulmx_block !mul0mx !mulmx0 !addr0 !add0r altd_sq [RHS]scalar_mx_block. Qed.
Lemma DD_T1 n e : DD n *m T1 n e = T1 n e *m DD n.
Proof. by rewrite !mulmx_block !mul0mx !mulmx0 !addr0 !add0r; congr block_mx; apply: diag_comm. Qed.
Lemma DD_T2 n e : DD n *m T2 n e = T2 n e *m DD n.
Proof. by rewrite !mulmx_block !mul0mx !mulmx0 !addr0 !add0r; congr block_mx; apply: diag_comm. Qed.
Lemma flip_V12 n ns e : V12 n ns (flip e) = DD n *m V12 n ns e *m DD ns.
Proof.
rewrite /V12 !mulmx_block !mul0mx !mulmx0 !addr0 !add0r.
by congr block_mx; apply/matrixP => i s; rewrite alt_conj !mxE /= mulrA.
Qed.
Lemma flip_V21 n ns e : V21 n ns (flip e) = DD ns *m V21 n ns e *m DD n.
Proof.
rewrite /V21 !mulmx_block !mul0mx !mulmx0 !addr0 !add0r.
by congr block_mx; apply/matrixP => i s; rewrite alt_conj !mxE /= addnC mulrA.
Qed.
Lemma flip_trip n ns e : round_trip n ns (flip e) = DD n *m round_trip n ns e *m DD n.
Proof.
rewrite /round_trip flip_V12 flip_V21.
have -> : T1 n (flip e) = T1 n e by [].
have -> : T2 ns (flip e) = T2 ns e by [].
rewrite !mulmxA -DD_T1 -!mulmxA; congr (_ *m (_ *m (_ *m _))).
by rewrite [T2 _ _ *m (DD _ *m _)]mulmxA -DD_T2 -mulmxA [DD ns *m (DD ns *m _)]mulmxA DD_sq mul1mx.
Qed.
Lemma flip_same n ns e : \det (1%:M - round_trip n ns (flip e)) = \det (1%:M - round_trip n ns e) /\ forall j, \tr (mxpow (round_trip n ns (flip e)) j.+1) = \tr (mxpow (round_trip n ns e) j.+1).
Proof.
have e2 : DD n *m (DD n *m round_trip n ns e) = round_trip n ns e by rewrite mulmxA DD_sq mul1mx.
by rewrite flip_trip; split=> [|j]; [rewrite det_swap e2|rewrite tr_swap e2].
Qed.
Lemma parity_gen mieb bes c m k : parity (n1 c m) (n2 c m) (rt_gen mieb bes c m k).
Proof.
move=> i s _ _; have [h1 h2] := coef_parity bes (c_lmax c) (c_lssmax c) m (c_med c) (c_L c) (c_ext c) (lmin m + i)%coq_nat (lmin m + s)%coq_nat k.
by move: h1 h2; rewrite sgn2_shift powE.
Qed.
Lemma parity_flip n ns e : parity n ns e -> parity n ns (flip e).
Proof. by move=> h i s hi hs; have [h1 h2] := h i s hi hs; rewrite /= h1 h2 mulrN. Qed.
