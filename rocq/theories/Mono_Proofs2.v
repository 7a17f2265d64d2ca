(** * Comparison of round-trip operators of different size *)
From Coq Require Import Reals.
From Coq Require Import List Lia Lra ZArith.
From mathcomp Require Import all_ssreflect ssralg ssrnum fingroup perm matrix mxalgebra poly mxpoly.
From Verif Require Import Base RStruct Lin_Model Lin_Spec Bal_Proofs Lin_Proofs Trip_Proofs Lin_Proofs2 RT_Proofs4 RT_Proofs6 RT_Proofs8 RT_Props3 Exp_Proofs Exp_Proofs2 Mono_Proofs.
Set Implicit Arguments.
Unset Strict Implicit.
Import GRing.Theory Num.Theory.
Local Open Scope ring_scope.
Delimit Scope R_scope with Re.

(** ** padding with zeros *)
Definition ff := nat -> nat -> R.
Definition cmat (n ns : nat) (a b c d : ff) : 'M[R]_(n + n, ns + ns) :=
  block_mx (\matrix_(i < n, s < ns) a i s) (\matrix_(i < n, s < ns) b i s) (\matrix_(i < n, s < ns) c i s) (\matrix_(i < n, s < ns) d i s).
Definition pad (n ns : nat) (f : ff) : ff := fun i s => if (i < n)%N && (s < ns)%N then f i s else 0.
Definition fe n' n : 'M[R]_(n', n) := \matrix_(i, j) ((i == j :> nat)%N)%:R.
Definition FE n' n : 'M[R]_(n' + n', n + n) := block_mx (fe n' n) 0 0 (fe n' n).
Lemma fe_mul n' n q (f : nat -> 'I_q -> R) : fe n' n *m \matrix_(i < n, s < q) f i s = \matrix_(i < n', s < q) (if (i < n)%N then f i s else 0).
Proof.
apply/matrixP => i s; rewrite !mxE; case: ltnP => h.
- rewrite (bigD1 (Ordinal h)) //= !mxE /= eqxx mul1r big1 ?addr0 // => j hj.
  rewrite !mxE; case: eqP => [e|_]; last by rewrite mul0r.
  by case/eqP: hj; apply/val_inj; rewrite /= e.
- apply: big1 => j _; rewrite !mxE; case: eqP => [e|_]; last by rewrite mul0r.
  by move: h; rewrite e leqNgt ltn_ord.
Qed.
Lemma fe_both n' n ns' ns (f : ff) : fe n' n *m \matrix_(i < n, s < ns) f i s *m (fe ns' ns)^T = \matrix_(i < n', s < ns') pad n ns f i s.
Proof.
rewrite (@fe_mul n' n ns (fun i (s : 'I_ns) => f i s)) -[LHS]trmxK trmx_mul trmxK.
have -> : (\matrix_(i < n', s < ns) (if (i < n)%N then f i s else 0))^T = \matrix_(s < ns, i < n') (if (i < n)%N then f i s else 0) by apply/matrixP => i s; rewrite !mxE.
rewrite (@fe_mul ns' ns n' (fun s (i : 'I_n') => if (i < n)%N then f i s else 0)).
by apply/matrixP => i s; rewrite !mxE /pad; case: (i < n)%N; case: (s < ns)%N.
Qed.
Lemma cmat_pad n' n ns' ns a b c d : cmat n' ns' (pad n ns a) (pad n ns b) (pad n ns c) (pad n ns d) = FE n' n *m cmat n ns a b c d *m (FE ns' ns)^T.
Proof.
rewrite /FE tr_block_mx !trmx0 /cmat !mulmx_block !mul0mx !mulmx0 !addr0 !add0r.
by rewrite !fe_both.
Qed.
Lemma fe_iso n' n : (n <= n')%N -> (fe n' n)^T *m fe n' n = 1%:M.
Proof.
move=> h; apply/matrixP => i j; have hi : (i < n')%N by exact: leq_trans (ltn_ord i) h.
rewrite !mxE (bigD1 (Ordinal hi)) //= !mxE /= eqxx mul1r big1 ?addr0.
- by rewrite -val_eqE.
- move=> s hs; rewrite !mxE; case: eqP => [e|_]; last by rewrite mul0r.
  by case/eqP: hs; apply/val_inj.
Qed.
Lemma FE_iso n' n : (n <= n')%N -> (FE n' n)^T *m FE n' n = 1%:M.
Proof.
move=> h; rewrite /FE tr_block_mx !trmx0 mulmx_block !mul0mx !mulmx0 !addr0 !add0r !fe_iso //.
by rewrite -scalar_mx_block.
Qed.
Lemma pad_gram n' n ns' ns (C : 'M[R]_(n + n, ns + ns)) : (n <= n')%N -> (ns <= ns')%N -> let D := FE n' n *m C *m (FE ns' ns)^T in
  \det (1%:M - D *m D^T) = \det (1%:M - C *m C^T) /\ forall j, \tr (mxpow (D *m D^T) j.+1) = \tr (mxpow (C *m C^T) j.+1).
Proof.
move=> h h' D; have e : D *m D^T = (FE n' n *m (C *m C^T)) *m (FE n' n)^T.
  by rewrite /D !trmx_mul trmxK !mulmxA; congr (_ *m _ *m _); rewrite -!mulmxA FE_iso // mulmx1.
have e2 : (FE n' n)^T *m (FE n' n *m (C *m C^T)) = C *m C^T by rewrite mulmxA FE_iso // mul1mx.
by rewrite e; split=> [|j]; [rewrite det_swap e2|rewrite tr_swap e2].
Qed.

(** ** the signs of the blocks *)
Definition sgb (k : R) q : 'M[R]_(q + q) := block_mx 1%:M 0 0 k%:M.
Lemma sgb_sq k q : k * k = 1 -> sgb k q *m sgb k q = 1%:M.
Proof. by move=> h; rewrite mulmx_block !mul0mx !mulmx0 !addr0 !add0r mul1mx -scalar_mxM h -scalar_mx_block. Qed.
Lemma sgb_T k q : (sgb k q)^T = sgb k q.
Proof. by rewrite tr_block_mx !trmx0 !tr_scalar_mx. Qed.
Lemma sgb_gram k s n ns (C : 'M[R]_(n + n, ns + ns)) : k * k = 1 -> s * s = 1 -> let B := s *: (sgb k n *m C *m sgb k ns) in
  \det (1%:M - B *m B^T) = \det (1%:M - C *m C^T) /\ forall j, \tr (mxpow (B *m B^T) j.+1) = \tr (mxpow (C *m C^T) j.+1).
Proof.
move=> hk hs B; have e : B *m B^T = (sgb k n *m (C *m C^T)) *m sgb k n.
  rewrite /B linearZ /= -scalemxAl -scalemxAr scalerA hs scale1r !trmx_mul !sgb_T -!mulmxA; congr (_ *m (_ *m _)).
  by rewrite [sgb k ns *m (sgb k ns *m _)]mulmxA sgb_sq // mul1mx.
have e2 : sgb k n *m (sgb k n *m (C *m C^T)) = C *m C^T by rewrite mulmxA sgb_sq // mul1mx.
by rewrite e; split=> [|j]; [rewrite det_swap e2|rewrite tr_swap e2].
Qed.

(** ** the round trip of coefficients with definite signs *)
Section Signed.
Context (n ns : nat) (e : roundtrip) (s1 s2 sg sg' : R) (hp : parity n ns e) (h1 : s1 * s1 = 1) (h2 : s2 * s2 = 1) (hq : s1 * s2 = 1) (hs : sg * sg = 1) (hs' : sg' * sg' = 1).
Context (d1 : definite s1 n (fun i => aTE e i * exp (a2 e i)) (fun i => aTM e i * exp (a2 e i))).
Context (d2 : definite s2 ns (fun i => bTE e i * exp (b2 e i)) (fun i => bTM e i * exp (b2 e i))).
Definition pE (s : R) (t l : nat -> R) (i : nat) : R := s * (-1) ^+ i * (t i * exp (l i)).
Definition pM (s : R) (t l : nat -> R) (i : nat) : R := - (s * (-1) ^+ i * (t i * exp (l i))).
Definition vv (s : R) (v l : nat -> nat -> R) (i j : nat) : R := s * (v i j * exp (l i j)).
Definition bigC : 'M[R]_(n + n, ns + ns) :=
  let E := vv sg (V0 e) (V4 e) in let M := vv sg' (V2 e) (V4 e) in
  cmat n ns (fun i s => (sqrt (pE s1 (aTE e) (a2 e) i) * E i s * sqrt (pE s2 (bTE e) (b2 e) s))%Re) (fun i s => (sqrt (pE s1 (aTE e) (a2 e) i) * M i s * sqrt (pM s2 (bTM e) (b2 e) s))%Re)
    (fun i s => (sqrt (pM s1 (aTM e) (a2 e) i) * M i s * sqrt (pE s2 (bTE e) (b2 e) s))%Re) (fun i s => (sqrt (pM s1 (aTM e) (a2 e) i) * E i s * sqrt (pM s2 (bTM e) (b2 e) s))%Re).
Lemma signed_gram : let U := round_trip n ns e in
  \det (1%:M - U) = \det (1%:M - bigC *m bigC^T) /\ forall j, \tr (mxpow U j.+1) = \tr (mxpow (bigC *m bigC^T) j.+1).
Proof.
move=> U; have [B [hd ht eB]] := definite_gram hp h1 h2 d1 d2.
have kk : (sg * sg') * (sg * sg') = 1 by rewrite mulrACA hs hs' mulr1.
have eC : B = sg *: (sgb (sg * sg') n *m bigC *m sgb (sg * sg') ns).
  rewrite eB /root /V12 /sgb /bigC /cmat !mulmx_block !mul0mx !mulmx0 !addr0 !add0r ?mul0mx ?addr0 ?add0r ?mul1mx ?mulmx1 scale_block_mx.
  rewrite ?mul_scalar_mx ?mul_mx_scalar; congr block_mx; apply/matrixP => i s; rewrite !(mul_diag_mx, mul_mx_diag, mxE) /vv /pE /pM !RmultE.
  + by rewrite !mulrA; congr (_ * _); rewrite [sg * sqrt _]mulrC -!mulrA; congr (_ * _); rewrite !mulrA hs mul1r.
  + by rewrite !mulrA; congr (_ * _); rewrite hs mul1r [sg' * sqrt _]mulrC -!mulrA; congr (_ * _); rewrite !mulrA hs' mul1r.
  + by rewrite !mulrA; congr (_ * _); rewrite hs mul1r [sg' * sqrt _]mulrC -!mulrA; congr (_ * _); rewrite !mulrA hs' mul1r.
  + rewrite !mulrA; congr (_ * _).
    have -> : sg * sg * sg' * sg * sg' = sg by rewrite hs mul1r mulrAC hs' mul1r.
    by rewrite [sg * sqrt _]mulrC -!mulrA; congr (_ * _); rewrite !mulrA hs mul1r.
have [g1 g2] := @sgb_gram _ _ n ns bigC kk hs; rewrite -eC in g1 g2.
by split=> [|j]; [rewrite /U hd hq scale1r g1|rewrite /U ht hq expr1n mul1r g2].
Qed.
End Signed.

(** ** comparison *)
Definition positive (s1 s2 sg sg' : R) (n ns : nat) (e : roundtrip) : Prop :=
  [/\ forall i, (i < n)%N -> (0 <= pE s1 (aTE e) (a2 e) i /\ 0 <= pM s1 (aTM e) (a2 e) i)%Re,
      forall s, (s < ns)%N -> (0 <= pE s2 (bTE e) (b2 e) s /\ 0 <= pM s2 (bTM e) (b2 e) s)%Re &
      forall i s, (i < n)%N -> (s < ns)%N -> (0 <= vv sg (V0 e) (V4 e) i s /\ 0 <= vv sg' (V2 e) (V4 e) i s)%Re].
Definition smaller (s1 s2 sg sg' : R) (n ns : nat) (e e' : roundtrip) : Prop :=
  [/\ forall i, (i < n)%N -> (pE s1 (aTE e) (a2 e) i <= pE s1 (aTE e') (a2 e') i /\ pM s1 (aTM e) (a2 e) i <= pM s1 (aTM e') (a2 e') i)%Re,
      forall s, (s < ns)%N -> (pE s2 (bTE e) (b2 e) s <= pE s2 (bTE e') (b2 e') s /\ pM s2 (bTM e) (b2 e) s <= pM s2 (bTM e') (b2 e') s)%Re &
      forall i s, (i < n)%N -> (s < ns)%N -> (vv sg (V0 e) (V4 e) i s <= vv sg (V0 e') (V4 e') i s /\ vv sg' (V2 e) (V4 e) i s <= vv sg' (V2 e') (V4 e') i s)%Re].
Lemma prod3_le (a b c a' b' c' : R) : (0 <= a <= a' -> 0 <= b <= b' -> 0 <= c <= c' -> 0 <= sqrt a * b * sqrt c <= sqrt a' * b' * sqrt c')%Re.
Proof.
move=> [a0 a1] [b0 b1] [c0 c1]; have r1 := sqrt_pos a; have r2 := sqrt_pos c; have r3 := sqrt_le_1 _ _ a0 (Rle_trans _ _ _ a0 a1) a1; have r4 := sqrt_le_1 _ _ c0 (Rle_trans _ _ _ c0 c1) c1.
split; first by apply: Rmult_le_pos => //; apply: Rmult_le_pos.
by apply: Rmult_le_compat => //; [apply: Rmult_le_pos|apply: Rmult_le_compat].
Qed.
Lemma prod3_pos (a b c : R) : (0 <= a -> 0 <= b -> 0 <= c -> 0 <= sqrt a * b * sqrt c)%Re.
Proof. by move=> a0 b0 c0; apply: Rmult_le_pos; [apply: Rmult_le_pos => //; exact: sqrt_pos|exact: sqrt_pos]. Qed.
Lemma pad_dom n ns n' ns' (f g : ff) : (forall i s, (i < n)%N -> (s < ns)%N -> (0 <= f i s <= g i s)%Re) -> (forall i s, (i < n')%N -> (s < ns')%N -> (0 <= g i s)%Re) ->
  forall (i : 'I_n') (s : 'I_ns'), (0 <= pad n ns f i s <= g i s)%Re.
Proof.
move=> h h' i s; rewrite /pad; case: ltnP => hi /=; last by have := h' i s (ltn_ord i) (ltn_ord s); rewrite zE; lra.
by case: ltnP => hs; [apply: h|have := h' i s (ltn_ord i) (ltn_ord s); rewrite zE; lra].
Qed.
Lemma cmat_dom n ns (a b c d a' b' c' d' : ff) : (forall (i : 'I_n) (s : 'I_ns), (0 <= a i s <= a' i s)%Re) -> (forall (i : 'I_n) (s : 'I_ns), (0 <= b i s <= b' i s)%Re) ->
  (forall (i : 'I_n) (s : 'I_ns), (0 <= c i s <= c' i s)%Re) -> (forall (i : 'I_n) (s : 'I_ns), (0 <= d i s <= d' i s)%Re) -> dom (cmat n ns a b c d) (cmat n ns a' b' c' d').
Proof.
move=> ha hb hc hd i s; rewrite /cmat !block_mxEv ![col_mx _ _ i s]mxE; case: (split i) => i0; rewrite ![row_mx _ _ i0 s]mxE; case: (split s) => s0; rewrite !mxE.
- exact: ha.
- exact: hb.
- exact: hc.
- exact: hd.
Qed.
Lemma cmat_pad_dom n ns n' ns' (a b c d a' b' c' d' : ff) :
  let P f g := (forall i s, (i < n)%N -> (s < ns)%N -> (0 <= f i s <= g i s)%Re) /\ (forall i s, (i < n')%N -> (s < ns')%N -> (0 <= g i s)%Re) in
  P a a' -> P b b' -> P c c' -> P d d' -> dom (cmat n' ns' (pad n ns a) (pad n ns b) (pad n ns c) (pad n ns d)) (cmat n' ns' a' b' c' d').
Proof. by move=> P [ha ha'] [hb hb'] [hc hc'] [hd hd']; apply: cmat_dom; apply: pad_dom. Qed.
Lemma positive_definite s1 s2 sg sg' n ns e : positive s1 s2 sg sg' n ns e ->
  definite s1 n (fun i => aTE e i * exp (a2 e i)) (fun i => aTM e i * exp (a2 e i)) /\ definite s2 ns (fun i => bTE e i * exp (b2 e i)) (fun i => bTM e i * exp (b2 e i)).
Proof. by move=> [h1 h2 _]; split=> i hi; [have [] := h1 i hi|have [] := h2 i hi]. Qed.

Section CompareTrips.
Context (n ns n' ns' : nat) (e e' : roundtrip) (s1 s2 sg sg' : R) (hn : (n <= n')%N) (hns : (ns <= ns')%N).
Context (hp : parity n ns e) (hp' : parity n' ns' e') (h1 : s1 * s1 = 1) (h2 : s2 * s2 = 1) (hq : s1 * s2 = 1) (hs : sg * sg = 1) (hs' : sg' * sg' = 1).
Context (hpos : positive s1 s2 sg sg' n ns e) (hpos' : positive s1 s2 sg sg' n' ns' e') (hle : smaller s1 s2 sg sg' n ns e e').
Let U := round_trip n ns e.
Let U' := round_trip n' ns' e'.
Let C := bigC n ns e s1 s2 sg sg'.
Let C' := bigC n' ns' e' s1 s2 sg sg'.
Let D := FE n' n *m C *m (FE ns' ns)^T.
Lemma D_dom : dom D C'.
Proof.
have [p1 p2 p3] := hpos; have [q1 q2 q3] := hpos'; have [l1 l2 l3] := hle.
rewrite /D /C /C' /bigC -cmat_pad; apply: cmat_pad_dom; split=> i s hi hj /=.
- by apply: prod3_le; split; [case: (p1 i hi)|case: (l1 i hi)|case: (p3 i s hi hj)|case: (l3 i s hi hj)|case: (p2 s hj)|case: (l2 s hj)].
- by apply: prod3_pos; [case: (q1 i hi)|case: (q3 i s hi hj)|case: (q2 s hj)].
- by apply: prod3_le; split; [case: (p1 i hi)|case: (l1 i hi)|case: (p3 i s hi hj)|case: (l3 i s hi hj)|case: (p2 s hj)|case: (l2 s hj)].
- by apply: prod3_pos; [case: (q1 i hi)|case: (q3 i s hi hj)|case: (q2 s hj)].
- by apply: prod3_le; split; [case: (p1 i hi)|case: (l1 i hi)|case: (p3 i s hi hj)|case: (l3 i s hi hj)|case: (p2 s hj)|case: (l2 s hj)].
- by apply: prod3_pos; [case: (q1 i hi)|case: (q3 i s hi hj)|case: (q2 s hj)].
- by apply: prod3_le; split; [case: (p1 i hi)|case: (l1 i hi)|case: (p3 i s hi hj)|case: (l3 i s hi hj)|case: (p2 s hj)|case: (l2 s hj)].
- by apply: prod3_pos; [case: (q1 i hi)|case: (q3 i s hi hj)|case: (q2 s hj)].
Qed.
Lemma trips_eq : [/\ \det (1%:M - U) = \det (1%:M - D *m D^T), \det (1%:M - U') = \det (1%:M - C' *m C'^T),
  forall j, \tr (mxpow U j.+1) = \tr (mxpow (D *m D^T) j.+1) & forall j, \tr (mxpow U' j.+1) = \tr (mxpow (C' *m C'^T) j.+1)].
Proof.
have [a1 a2] := positive_definite hpos; have [b1 b2] := positive_definite hpos'.
have [x1 x2] := signed_gram hp h1 h2 hq hs hs' a1 a2; have [y1 y2] := signed_gram hp' h1 h2 hq hs hs' b1 b2.
have [z1 z2] := @pad_gram n' n ns' ns C hn hns.
split=> //; first by rewrite /U x1 -/C -z1.
by move=> j; rewrite /U x2 -/C -z2.
Qed.
Lemma compare_trips : (forall j, (0 <= \tr (mxpow U j.+1) <= \tr (mxpow U' j.+1))%Re) /\
  ((\tr U' < 1)%Re -> [/\ (0 < \det (1%:M - U'))%Re, (0 < \det (1%:M - U))%Re & (ln (\det (1%:M - U')) + (\tr U' - \tr U) <= ln (\det (1%:M - U)))%Re]).
Proof.
have [e1 e2 e3 e4] := trips_eq; have hd := D_dom.
split; first by move=> j; rewrite e3 e4; split; [exact: gram_pow|exact: gram_traces].
have t1 : \tr U = \tr (D *m D^T) by have := e3 0%N; rewrite /mxpow /= !mulmx1.
have t2 : \tr U' = \tr (C' *m C'^T) by have := e4 0%N; rewrite /mxpow /= !mulmx1.
by rewrite e1 e2 t1 t2; exact: lndet_gap.
Qed.
(** strictly, if one of the entries of the same polarization TE is strictly larger *)
Lemma compare_strict i s : (i < n')%N -> (s < ns')%N -> let w e i s := (sqrt (pE s1 (aTE e) (a2 e) i) * vv sg (V0 e) (V4 e) i s * sqrt (pE s2 (bTE e) (b2 e) s))%Re in
  (pad n ns (w e) i s < w e' i s)%Re -> (\tr U < \tr U')%Re.
Proof.
move=> hi hj w hw; have [e1 e2 e3 e4] := trips_eq; have hd := D_dom.
have t1 : \tr U = \tr (D *m D^T) by have := e3 0%N; rewrite /mxpow /= !mulmx1.
have t2 : \tr U' = \tr (C' *m C'^T) by have := e4 0%N; rewrite /mxpow /= !mulmx1.
rewrite t1 t2; apply: (gram_strict hd (i := lshift n' (Ordinal hi)) (s := lshift ns' (Ordinal hj))).
by rewrite /D /C /C' /bigC -cmat_pad /cmat !block_mxEul !mxE.
Qed.
End CompareTrips.
