(** * Opposite orders m, and definite scattering coefficients *)
From Coq Require Import Reals.
From Coq Require Import List Lia Lra.
From mathcomp Require Import all_ssreflect ssralg fingroup perm matrix mxalgebra poly mxpoly.
From Verif Require Import Base RStruct Lin_Model Lin_Spec Bal_Proofs Lin_Proofs Trip_Proofs Lin_Proofs2 RT_Proofs4 RT_Proofs6.
Set Implicit Arguments.
Unset Strict Implicit.
Import GRing.Theory.
Local Open Scope ring_scope.
Delimit Scope R_scope with Re.

(** ** a matrix with additional rows and columns of zeros *)
Section Embed.
Context (p n' n : nat) (hn : n' = (p + n)%N).
Definition emb : 'M[R]_(n', n) := \matrix_(i, j) ((i == p + j :> nat)%N)%:R.
Lemma emb_mul q (f : nat -> 'I_q -> R) : emb *m \matrix_(i < n, s < q) f i s = \matrix_(i < n', s < q) (if (p <= i)%N then f (i - p)%N s else 0).
Proof.
apply/matrixP => i s; rewrite !mxE; case: leqP => h.
- have hi : (i - p < n)%N by rewrite ltn_subLR // -hn.
  rewrite (bigD1 (Ordinal hi)) //= !mxE /= subnKC // eqxx mul1r big1 ?addr0 // => j hj.
  rewrite !mxE; case: eqP => [e|_]; last by rewrite mul0r.
  by case/eqP: hj; apply/val_inj; rewrite /= e addKn.
- apply: big1 => j _; rewrite !mxE; case: eqP => [e|_]; last by rewrite mul0r.
  by move: h; rewrite e ltnNge leq_addr.
Qed.
Lemma emb_diag (t : nat -> R) : emb^T *m diag_mx (\row_(i < n') t i) *m emb = diag_mx (\row_(j < n) t (p + j)%N).
Proof.
apply/matrixP => i j; have hi : (p + i < n')%N by rewrite hn ltn_add2l.
rewrite mxE (bigD1 (Ordinal hi)) //= mul_mx_diag !mxE /= eqxx mul1r big1 ?addr0.
- by rewrite eqn_add2l; case: eqP => [/val_inj ->|h]; [rewrite eqxx mulr1n mulr1|case: eqP => [e|_]; [case: h; rewrite e|rewrite mulr0n mulr0]].
- move=> s hs; rewrite !mxE; case: eqP => [e|_]; last by rewrite !mul0r.
  by case/eqP: hs; apply/val_inj.
Qed.
End Embed.
Lemma emb_both p n' n ns' ns (f : nat -> nat -> R) : n' = (p + n)%N -> ns' = (p + ns)%N ->
  emb p n' n *m \matrix_(i < n, s < ns) f i s *m (emb p ns' ns)^T = \matrix_(i < n', s < ns') (if (p <= i)%N && (p <= s)%N then f (i - p)%N (s - p)%N else 0).
Proof.
move=> h h'; rewrite (emb_mul h (fun i (s : 'I_ns) => f i s)) -[LHS]trmxK trmx_mul trmxK.
have -> : (\matrix_(i < n', s < ns) (if (p <= i)%N then f (i - p)%N s else 0))^T = \matrix_(s < ns, i < n') (if (p <= i)%N then f (i - p)%N s else 0) by apply/matrixP => i s; rewrite !mxE.
rewrite (emb_mul h' (fun s (i : 'I_n') => if (p <= i)%N then f (i - p)%N s else 0)).
by apply/matrixP => i s; rewrite !mxE; case: (p <= i)%N; case: (p <= s)%N.
Qed.

(** ** opposite m *)
Definition opposite (p n' ns' n ns : nat) (e' e : roundtrip) : Prop :=
  [/\ n' = (p + n)%N, ns' = (p + ns)%N,
      forall i, aTE e' (p + i)%N * exp (a2 e' (p + i)%N) = aTE e i * exp (a2 e i) /\ aTM e' (p + i)%N * exp (a2 e' (p + i)%N) = aTM e i * exp (a2 e i),
      forall s, bTE e' (p + s)%N * exp (b2 e' (p + s)%N) = bTE e s * exp (b2 e s) /\ bTM e' (p + s)%N * exp (b2 e' (p + s)%N) = bTM e s * exp (b2 e s) &
      forall i s, (i < n')%N -> (s < ns')%N -> let r a a' sg := (a e' i s * exp (V4 e' i s) = if (p <= i)%N && (p <= s)%N then sg * (a' e (i - p)%N (s - p)%N * exp (V4 e (i - p)%N (s - p)%N)) else 0) in
        [/\ r V0 V0 1, r V1 V1 1, r V2 V2 (-1) & r V3 V3 (-1)]].
Lemma opposite_det p n' ns' n ns e' e : opposite p n' ns' n ns e' e ->
  \det (1%:M - round_trip n' ns' e') = \det (1%:M - round_trip n ns e) /\
  forall j, \tr (mxpow (round_trip n' ns' e') j.+1) = \tr (mxpow (round_trip n ns e) j.+1).
Proof.
move=> [hn hns ha hb hv].
pose E := block_mx (emb p n' n) 0 0 (emb p n' n); pose F := block_mx (emb p ns' ns) 0 0 (emb p ns' ns).
pose sg q : 'M[R]_(q + q) := block_mx 1%:M 0 0 (- 1%:M).
have sg2 q : sg q *m sg q = 1%:M by rewrite mulmx_block !mul0mx !mulmx0 !addr0 !add0r mulNmx mulmxN opprK !mul1mx [RHS]scalar_mx_block.
have sgV q r (A B : 'M[R]_(q, r)) : sg q *m block_mx A B B A *m sg r = block_mx A (- B) (- B) A.
  by rewrite !mulmx_block !mul0mx !mulmx0 !addr0 !add0r !mul1mx !mulmx1 !mulNmx !mulmxN !mul1mx !mulmx1 opprK.
have sgT q (D D' : 'M[R]_q) : sg q *m block_mx D 0 0 D' *m sg q = block_mx D 0 0 D'.
  by rewrite !mulmx_block !mul0mx !mulmx0 !addr0 !add0r !mul1mx !mulmx1 !mulNmx !mulmxN !mul1mx !mulmx1 opprK ?oppr0.
have eET : E^T = block_mx (emb p n' n)^T 0 0 (emb p n' n)^T by rewrite tr_block_mx !trmx0.
have eFT : F^T = block_mx (emb p ns' ns)^T 0 0 (emb p ns' ns)^T by rewrite tr_block_mx !trmx0.
have eT1 : E^T *m T1 n' e' *m E = T1 n e.
  rewrite eET /E /T1 !mulmx_block !mul0mx !mulmx0 !addr0 !add0r !mul0mx.
  rewrite (emb_diag hn (fun i => aTE e' i * exp (a2 e' i))) (emb_diag hn (fun i => aTM e' i * exp (a2 e' i))).
  by congr block_mx; congr diag_mx; apply/rowP => i; rewrite !mxE; have [] := ha i.
have eT2 : F^T *m T2 ns' e' *m F = T2 ns e.
  rewrite eFT /F /T2 !mulmx_block !mul0mx !mulmx0 !addr0 !add0r !mul0mx.
  rewrite (emb_diag hns (fun i => bTE e' i * exp (b2 e' i))) (emb_diag hns (fun i => bTM e' i * exp (b2 e' i))).
  by congr block_mx; congr diag_mx; apply/rowP => i; rewrite !mxE; have [] := hb i.
have eV12 : V12 n' ns' e' = E *m (sg n *m V12 n ns e *m sg ns) *m F^T.
  rewrite /V12 sgV eFT /E !mulmx_block !mul0mx !mulmx0 !addr0 !add0r !mulmxN !mulNmx.
  rewrite (emb_both (fun i s => V0 e i s * exp (V4 e i s)) hn hns) (emb_both (fun i s => V2 e i s * exp (V4 e i s)) hn hns).
  congr block_mx; apply/matrixP => i s; rewrite !mxE; have [r0 _ r2 _] := hv i s (ltn_ord i) (ltn_ord s); rewrite ?r0 ?r2; case: ifP => _; by rewrite ?mul1r ?mulN1r ?oppr0.
have eV21 : V21 n' ns' e' = F *m (sg ns *m V21 n ns e *m sg n) *m E^T.
  rewrite /V21 sgV eET /F !mulmx_block !mul0mx !mulmx0 !addr0 !add0r !mulmxN !mulNmx.
  rewrite (emb_both (fun s i => V1 e i s * exp (V4 e i s)) hns hn) (emb_both (fun s i => V3 e i s * exp (V4 e i s)) hns hn).
  congr block_mx; apply/matrixP => s i; rewrite !mxE; have [_ r1 _ r3] := hv i s (ltn_ord i) (ltn_ord s); rewrite ?r1 ?r3 andbC; case: ifP => _; by rewrite ?mul1r ?mulN1r ?oppr0.
pose X := T1 n' e' *m E; pose Y := sg n *m V12 n ns e *m sg ns *m T2 ns e *m (sg ns *m V21 n ns e *m sg n) *m E^T.
have eU : round_trip n' ns' e' = X *m Y.
  by rewrite /round_trip eV12 eV21 /X /Y -eT2 !mulmxA.
have eYX : Y *m X = sg n *m (V12 n ns e *m T2 ns e *m V21 n ns e *m T1 n e) *m sg n.
  have -> : Y *m X = sg n *m V12 n ns e *m (sg ns *m T2 ns e *m sg ns) *m V21 n ns e *m (sg n *m T1 n e).
    by rewrite /X /Y -eT1 !mulmxA.
  have hT1 : sg n *m T1 n e *m sg n = T1 n e by exact: sgT.
  have cT : sg n *m T1 n e = T1 n e *m sg n by rewrite -{2}hT1 -mulmxA sg2 mulmx1.
  have -> : sg ns *m T2 ns e *m sg ns = T2 ns e by exact: sgT.
  by rewrite cT !mulmxA.
have e3 : round_trip n ns e = T1 n e *m (V12 n ns e *m T2 ns e *m V21 n ns e) by rewrite /round_trip !mulmxA.
have sim : similar (V12 n ns e *m T2 ns e *m V21 n ns e *m T1 n e) (Y *m X) by exists (sg n), (sg n); split.
split.
- by rewrite eU det_swap (similar_det (similar_1m sim)) det_swap e3.
- by move=> j; rewrite eU tr_swap (similar_tr (similar_pow _ sim)) -tr_swap e3.
Qed.

(** ** scattering coefficients of definite sign *)
(** the signs of a weakly reflecting object: (-1)^l and -(-1)^l up to a common sign [s] *)
Definition definite (s : R) (n : nat) (tTE tTM : nat -> R) : Prop :=
  forall i, (i < n)%N -> (0 <= s * (-1) ^+ i * tTE i)%Re /\ (0 <= - (s * (-1) ^+ i * tTM i))%Re.
Definition root (s : R) n (tTE tTM : nat -> R) : 'M[R]_(n + n) :=
  block_mx (diag_mx (\row_(i < n) sqrt (s * (-1) ^+ i * tTE i))) 0 0 (diag_mx (\row_(i < n) sqrt (- (s * (-1) ^+ i * tTM i)))).
Lemma root_T s n tTE tTM : (root s n tTE tTM)^T = root s n tTE tTM.
Proof. by rewrite tr_block_mx !trmx0 !tr_diag_mx. Qed.
Lemma root_alt s n tTE tTM : alt n *m root s n tTE tTM = root s n tTE tTM *m alt n.
Proof. by rewrite !mulmx_block !mul0mx !mulmx0 !addr0 !add0r mulNmx mulmxN; congr block_mx; [|congr (- _)]; apply: diag_comm. Qed.
Lemma sgn_sqr i : (-1) ^+ i * (-1) ^+ i = 1 :> R.
Proof. by rewrite -exprD addnn -mul2n exprM sqrrN expr1n expr1n. Qed.
Lemma root_sq s n tTE tTM : s * s = 1 -> definite s n tTE tTM ->
  block_mx (diag_mx (\row_(i < n) tTE i)) 0 0 (diag_mx (\row_(i < n) tTM i)) = s *: (alt n *m (root s n tTE tTM *m root s n tTE tTM)).
Proof.
move=> hs h; rewrite /alt /root !mulmx_block !mul0mx !mulmx0 !addr0 !add0r ?mul0mx ?mulmx0 scale_block_mx !scaler0; congr block_mx.
- rewrite /altd !mulmx_diag -linearZ /=; congr diag_mx; apply/rowP => i; rewrite !mxE; have [h1 _] := h i (ltn_ord i).
  rewrite -[sqrt _ * sqrt _]RmultE sqrt_sqrt //.
  by rewrite !mulrA [s * _]mulrC -[_ * s * s]mulrA hs mulr1 sgn_sqr mul1r.
- rewrite /altd mulNmx !mulmx_diag scalerN -linearZ -linearN /=; congr diag_mx; apply/rowP => i; rewrite !mxE; have [_ h1] := h i (ltn_ord i).
  rewrite -[sqrt _ * sqrt _]RmultE sqrt_sqrt //.
  by rewrite !mulrN opprK !mulrA [s * _]mulrC -[_ * s * s]mulrA hs mulr1 sgn_sqr mul1r.
Qed.
Lemma definite_gram s1 s2 n ns e : parity n ns e -> s1 * s1 = 1 -> s2 * s2 = 1 ->
  definite s1 n (fun i => aTE e i * exp (a2 e i)) (fun i => aTM e i * exp (a2 e i)) ->
  definite s2 ns (fun i => bTE e i * exp (b2 e i)) (fun i => bTM e i * exp (b2 e i)) ->
  exists B : 'M[R]_(n + n, ns + ns), [/\
    \det (1%:M - round_trip n ns e) = \det (1%:M - (s1 * s2) *: (B *m B^T)),
    forall j, \tr (mxpow (round_trip n ns e) j.+1) = (s1 * s2) ^+ j.+1 * \tr (mxpow (B *m B^T) j.+1) &
    B = root s1 n (fun i => aTE e i * exp (a2 e i)) (fun i => aTM e i * exp (a2 e i)) *m V12 n ns e *m root s2 ns (fun i => bTE e i * exp (b2 e i)) (fun i => bTM e i * exp (b2 e i))].
Proof.
move=> hp h1 h2 d1 d2; set R1 := root s1 n _ _; set R2 := root s2 ns _ _; pose B := R1 *m V12 n ns e *m R2; exists B.
pose X := alt n *m R1; pose Y := R1 *m V12 n ns e *m R2 *m (R2 *m (V12 n ns e)^T *m alt n).
have eU : round_trip n ns e = (s1 * s2) *: (X *m Y).
  have e1 : T1 n e = s1 *: (alt n *m (R1 *m R1)) by rewrite -root_sq.
  have e2 : T2 ns e *m alt ns = s2 *: (R2 *m R2).
    have -> : T2 ns e = s2 *: (alt ns *m (R2 *m R2)) by rewrite -root_sq.
    have c : alt ns *m (R2 *m R2) = (R2 *m R2) *m alt ns by rewrite mulmxA root_alt -mulmxA root_alt mulmxA.
    by rewrite c -scalemxAl -mulmxA alt_sq mulmx1.
  rewrite round_trip_parity // e1 !mulmxA -[_ *m T2 ns e *m alt ns]mulmxA e2 -!(scalemxAl, scalemxAr) scalerA /X /Y mulrC.
  by rewrite !mulmxA.
have eYX : Y *m X = B *m B^T.
  rewrite /X /Y /B !trmx_mul !root_T !mulmxA; congr (_ *m _); rewrite -!mulmxA; do 4 congr (_ *m _).
  by rewrite alt_sq mulmx1.
have mxpow_scale (q : nat) (s : R) (A : 'M[R]_q) j : mxpow (s *: A) j = s ^+ j *: mxpow A j.
  by elim: j => [|j IH]; [rewrite expr0 scale1r|rewrite !mxpowS IH -scalemxAl -scalemxAr scalerA -exprS].
split=> //.
- by rewrite eU scalemxAr det_swap -scalemxAl eYX.
- by move=> j; rewrite eU mxpow_scale mxtraceZ tr_swap eYX.
Qed.
