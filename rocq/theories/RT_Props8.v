(** * Property C75: two spheres of the same kind attract each other, as a statement about distances *)
From Coq Require Import Reals.
From Coq Require Import List Lia Lra ZArith.
From mathcomp Require Import all_ssreflect ssralg ssrnum fingroup perm matrix mxalgebra poly mxpoly.
From Verif Require Import Base RStruct Mat_Model Mat_Spec Mat_Proofs Bessel_Model Scat_Model Scat_Spec Scat_Proofs Scat_Proofs4 Scat_Proofs7 Scat_Proofs9 Scat_Proofs10 Scat_Props2 Trans_Model Trans_Spec Trans_Proofs3
  Lin_Model Lin_Spec Bal_Proofs Lin_Proofs Trip_Proofs Lin_Proofs2 RT_Model RT_Spec RT_Spec2 RT_Proofs RT_Proofs2 RT_Proofs3 RT_Proofs4 RT_Proofs6 RT_Proofs7 RT_Proofs8 RT_Proofs9 RT_Proofs10
  RT_Props RT_Props2 RT_Props3 RT_Props5 Exp_Proofs2 Lap_Proofs2 Mono_Proofs Mono_Proofs2 Mono_Proofs3.
Set Implicit Arguments.
Unset Strict Implicit.
Import GRing.Theory.
Local Open Scope ring_scope.
Delimit Scope R_scope with Re.

Section Distance.
Context (mieb : list R -> nat -> Z -> res (list (list R) * list (list R))) (c : config) (m : Z) (k : R) (e u : R -> R) (s : R).
Context (hx : c_ext c = true) (hh : has (c_med c) e u) (hk : (0 < k)%Re) (ho : some_orders c m) (hs : s * s = 1).
Context (g1 : signed s (c_lmax c) k (mieA mieb c)) (g2 : signed s (c_lssmax c) k (mieB mieb c)).
Let rt L := rt_with mieb (at_distance c L) m k.
Let x L : R := (k * L * sqrt (e k))%Re.
Let sg : R := sgnZ m.
Let sg' : R := - sgnZ m.
Let n := n1 c m.
Let ns := n2 c m.
Lemma x_mono L L' : (0 < L)%Re -> (L < L')%Re -> (0 < x L /\ x L < x L')%Re.
Proof.
move=> h0 h1; have [_ [hp _]] := hh; have [hp' _] := hp k hk; have sp := sqrt_lt_R0 _ hp'; split.
- by apply: Rmult_lt_0_compat => //; apply: Rmult_lt_0_compat.
- by apply: Rmult_lt_compat_r => //; apply: Rmult_lt_compat_l.
Qed.
Lemma falls_le P a b : falls P -> (0 < a)%Re -> (a < b)%Re -> (0 < P b /\ P b < P a)%Re.
Proof. by move=> [h1 h2] ha hb; split; [apply: h1; lra|apply: h2]. Qed.
Lemma m_nonneg : (0 <= 2 * IZR m)%Re.
Proof. by have [h _] := ho; have := IZR_le _ _ h; lra. Qed.
Lemma rt_positive L : (0 < L)%Re -> positive (s_of m s) (s_of m s) sg sg' n ns (rt L).
Proof.
move=> hL; have [d1 d2] := @solid_definite mieb c m k s s ho g1 g2.
split; [exact: d1|exact: d2|].
move=> i j /ltP hi /ltP hj; have [P [Q [[p1 _] [[q1 _] E]]]] := @trans_falls mieb c m k e u hx hh hk (proj1 ho) i j hi hj.
have [E1 E2] := E L hL; have L1 : (L < L + 1)%Re by lra.
have [x0 _] := x_mono hL L1.
have F1 : vv sg (V0 (rt L)) (V4 (rt L)) i j = P (x L) by exact: E1.
have F2 : vv sg' (V2 (rt L)) (V4 (rt L)) i j = (2 * IZR m * Q (x L))%Re by exact: E2.
rewrite F1 F2; split; first by left; apply: p1.
by apply: Rmult_le_pos; [exact: m_nonneg|left; apply: q1].
Qed.
Lemma rt_smaller L L' : (0 < L)%Re -> (L < L')%Re -> smaller (s_of m s) (s_of m s) sg sg' n ns (rt L') (rt L).
Proof.
move=> h0 h1; split; [by move=> i _; split; apply: Rle_refl|by move=> i _; split; apply: Rle_refl|].
move=> i j /ltP hi /ltP hj; have [P [Q [fp [fq E]]]] := @trans_falls mieb c m k e u hx hh hk (proj1 ho) i j hi hj.
have h2 : (0 < L')%Re by lra.
have [E1 E2] := E L h0; have [E3 E4] := E L' h2; have [x0 x1] := x_mono h0 h1.
have [a1 a2] := falls_le fp x0 x1; have [b1 b2] := falls_le fq x0 x1.
have F1 : vv sg (V0 (rt L)) (V4 (rt L)) i j = P (x L) by exact: E1.
have F2 : vv sg' (V2 (rt L)) (V4 (rt L)) i j = (2 * IZR m * Q (x L))%Re by exact: E2.
have F3 : vv sg (V0 (rt L')) (V4 (rt L')) i j = P (x L') by exact: E3.
have F4 : vv sg' (V2 (rt L')) (V4 (rt L')) i j = (2 * IZR m * Q (x L'))%Re by exact: E4.
rewrite F1 F2 F3 F4; split; first by left.
by apply: Rmult_le_compat_l; [exact: m_nonneg|left].
Qed.
Let U L := trip mieb (at_distance c L) m k.
Lemma sg_sq : sg * sg = 1. Proof. exact: sgnZ_sq. Qed.
Lemma sg_sq' : sg' * sg' = 1. Proof. by rewrite /sg' mulrNN; exact: sgnZ_sq. Qed.
Lemma s_sq : s_of m s * s_of m s = 1. Proof. by rewrite s_ofM. Qed.
Lemma distance_gap L L' : (0 < L)%Re -> (L < L')%Re -> (forall j, (0 <= \tr (mxpow (U L') j.+1) <= \tr (mxpow (U L) j.+1))%Re) /\
  ((\tr (U L) < 1)%Re -> [/\ (0 < \det (1%:M - U L))%Re, (0 < \det (1%:M - U L'))%Re & (ln (\det (1%:M - U L)) + (\tr (U L) - \tr (U L')) <= ln (\det (1%:M - U L')))%Re]).
Proof.
move=> h0 h1; have h2 : (0 < L')%Re by lra.
exact: (compare_trips (leqnn n) (leqnn ns) (@parity_rt mieb (at_distance c L') m k) (@parity_rt mieb (at_distance c L) m k) s_sq s_sq s_sq sg_sq sg_sq'
  (rt_positive h2) (rt_positive h0) (rt_smaller h0 h1)).
Qed.
Lemma distance_strict L L' : (0 < L)%Re -> (L < L')%Re -> (0 < s * (-1) ^ lmin m * entry TE (mieA mieb c) (lmin m - 1)%coq_nat k)%Re ->
  (0 < s * (-1) ^ lmin m * entry TE (mieB mieb c) (lmin m - 1)%coq_nat k)%Re -> (0 < \tr (U L') < \tr (U L))%Re.
Proof.
move=> h0 h1 t1 t2; have h2 : (0 < L')%Re by lra.
have [n0 ns0] := orders_pos ho.
have strict a b : (0 < a)%Re -> (a < b)%Re -> (\tr (U b) < \tr (U a))%Re.
  move=> ha hab; have hb : (0 < b)%Re by lra.
  apply: (compare_strict (leqnn n) (leqnn ns) (@parity_rt mieb (at_distance c b) m k) (@parity_rt mieb (at_distance c a) m k) s_sq s_sq s_sq sg_sq sg_sq'
    (rt_positive hb) (rt_positive ha) (rt_smaller ha hab) n0 ns0).
  have [P [Q [fp [fq E]]]] := @trans_falls mieb c m k e u hx hh hk (proj1 ho) 0%N 0%N (elimT ltP n0) (elimT ltP ns0).
  have [E1 _] := E a ha; have [E2 _] := E b hb; have [x0 x1] := x_mono ha hab; have [y0 y1] := falls_le fp x0 x1.
  have F1 : vv sg (V0 (rt a)) (V4 (rt a)) 0 0 = P (x a) by exact: E1.
  have F2 : vv sg (V0 (rt b)) (V4 (rt b)) 0 0 = P (x b) by exact: E2.
  rewrite /pad n0 ns0 [true && true]/= F1 F2.
  have g (t : R) : (0 < s * (-1) ^ lmin m * t)%Re -> (0 < sqrt (s_of m s * (-1) ^+ 0 * (t * exp 0)%Re)%R)%Re.
    move=> ht; apply: sqrt_lt_R0; rewrite expr0 mulr1 exp_0 Rmult_1_r /s_of; move: ht; rewrite RpowE => ht; exact: ht.
  have A0 := g _ t1; have B0 := g _ t2; rewrite -(PeanoNat.Nat.add_0_r (lmin m - 1)%coq_nat) in A0 B0.
  have e1 z : sqrt (pE (s_of m s) (aTE (rt z)) (a2 (rt z)) 0) = sqrt (s_of m s * (-1) ^+ 0 * (entry TE (mieA mieb c) ((lmin m - 1)%coq_nat + 0)%coq_nat k * exp 0)%Re)%R by [].
  have e2 z : sqrt (pE (s_of m s) (bTE (rt z)) (b2 (rt z)) 0) = sqrt (s_of m s * (-1) ^+ 0 * (entry TE (mieB mieb c) ((lmin m - 1)%coq_nat + 0)%coq_nat k * exp 0)%Re)%R by [].
  rewrite !e1 !e2.
  by apply: Rmult_lt_compat_r => //; apply: Rmult_lt_compat_l.
split; last exact: strict.
have h3 : (L' < L' + 1)%Re by lra.
have := strict _ _ h2 h3; have [h4 _] := distance_gap h2 h3; have [h5 _] := h4 0%N; move: h5; rewrite /mxpow /= mulmx1.
by move=> h5 h6; exact: (Rle_lt_trans _ _ _ h5 h6).
Qed.
End Distance.

(** ** what rt_lndet returns at the two distances *)
Lemma distance_run mieb c m k e u conv (A B : coefs) L L' : mieA mieb c [:: k] = Val A -> mieB mieb c [:: k] = Val B -> has (c_med c) e u -> (0 < k)%Re -> some_orders c m -> (conv < 1)%Re ->
  (0 < L)%Re -> (0 < L')%Re -> let U L := trip mieb (at_distance c L) m k in (0 < \det (1%:M - U L))%Re -> (0 < \det (1%:M - U L'))%Re ->
  exists N, forall fuel, (N <= fuel)%N -> rt_lndet mieb trans_bessels (at_distance c L) fuel conv m [:: k] = Some (Val [:: Fin (ln (\det (1%:M - U L)))]) /\
    rt_lndet mieb trans_bessels (at_distance c L') fuel conv m [:: k] = Some (Val [:: Fin (ln (\det (1%:M - U L')))]).
Proof.
move=> eA eB hm hk [_ [o1 o2]] hc h0 h1 U d d'.
have [N hN] := @lndet_total mieb (at_distance c L) m k A B e u conv eA eB hm h0 hk o1 o2 hc.
have [N' hN'] := @lndet_total mieb (at_distance c L') m k A B e u conv eA eB hm h1 hk o1 o2 hc.
exists (maxn N N') => fuel; rewrite geq_max => /andP [f1 f2]; split.
- by rewrite (hN _ f1) (lnE d).
- by rewrite (hN' _ f2) (lnE d').
Qed.

(** ** two solid spheres both denser or both thinner than the medium, exact radial functions: the further apart, the weaker *)
Theorem C75_distance : forall c m1 m2 ra rb e u m k s conv L L', c_1 c = Solid m1 ra -> c_2 c = Solid m2 rb -> c_ext c = true -> has (c_med c) e u -> (0 < ra)%Re -> (0 < rb)%Re -> (0 < k)%Re ->
  some_orders c m -> contrast s m1 e u k -> contrast s m2 e u k -> (conv < 1)%Re -> (0 < L)%Re -> (L < L')%Re -> let U L := trip exact_bessels (at_distance c L) m k in
  (forall j, (0 <= \tr (mxpow (U L') j.+1) <= \tr (mxpow (U L) j.+1))%Re) /\
  ((\tr (U L) < 1)%Re -> exists v v' N, (forall fuel, (N <= fuel)%N -> rt_lndet exact_bessels trans_bessels (at_distance c L) fuel conv m [:: k] = Some (Val [:: Fin v]) /\
      rt_lndet exact_bessels trans_bessels (at_distance c L') fuel conv m [:: k] = Some (Val [:: Fin v'])) /\ (v + (\tr (U L) - \tr (U L')) <= v' <= - \tr (U L'))%Re).
Proof.
move=> c m1 m2 ra rb e u m k s conv L L' e1 e2 hx hm ha hb hk ho g1 g2 hc h0 h1 U.
have [[A eA] [B eB]] := exact_val e1 e2 (contrast_solid g1) (contrast_solid g2) hm ha hb hk.
have s1 : signed s (c_lmax c) k (mieA exact_bessels c) by rewrite /mieA e1; apply: (ext_signed _ _ ha _ _ _ hm _ hk).
have s2 : signed s (c_lssmax c) k (mieB exact_bessels c) by rewrite /mieB e2 hx; apply: (ext_signed _ _ hb _ _ _ hm _ hk).
have [t1 t2] := distance_gap hx hm hk ho (contrast_sq g1) s1 s2 h0 h1.
split; first exact: t1.
have h2 : (0 < L')%Re by lra.
move=> ht; have [d d' hv] := t2 ht; have [N hN] := distance_run eA eB hm hk ho hc h0 h2 d d'.
exists (ln (\det (1%:M - U L))), (ln (\det (1%:M - U L'))), N; split; first exact: hN.
split; first exact: hv.
have [_ r2] := @C61_attraction (at_distance c L') m1 m2 ra rb e u m k s conv e1 e2 hm ha hb h2 hk ho g1 g2 hc.
have [_ tt] := t1 0%N; rewrite /mxpow /= !mulmx1 in tt.
have [w [N2 [hw [_ hw2]]]] := r2 (Rle_lt_trans _ _ _ tt ht).
have [_ ew] := hN (maxn N N2) (leq_maxl _ _); move: (hw (maxn N N2) (leq_maxr _ _)); rewrite ew => -[->]; exact: hw2.
Qed.
Print Assumptions C75_distance.

(** ** two perfect reflectors, the radial functions of the code: strictly weaker *)
Lemma signs_first N k F (m : Z) : signs N k F -> (Z.to_nat (Z.max 1 m) <= N)%coq_nat -> (0 < 1 * (-1) ^ lmin m * entry TE F (lmin m - 1)%coq_nat k)%Re.
Proof.
move=> h hN; have hl : ((lmin m - 1)%coq_nat < N)%coq_nat by rewrite /lmin; lia.
have [p [p' [hp [_ [-> _]]]]] := h _ hl; have -> : ((lmin m - 1)%coq_nat + 1)%coq_nat = lmin m by rewrite /lmin; lia.
by rewrite Rmult_1_l -Rmult_assoc m1_sq Rmult_1_l.
Qed.
Theorem C75_perfect_reflectors : forall c ra rb e u m k conv L L', c_1 c = Solid PEC ra -> c_2 c = Solid PEC rb -> c_ext c = true -> has (c_med c) e u -> (0 < ra)%Re -> (0 < rb)%Re -> (0 < k)%Re ->
  some_orders c m -> (conv < 1)%Re -> (0 < L)%Re -> (L < L')%Re -> let U L := trip mie_bessels (at_distance c L) m k in
  (forall j, (0 <= \tr (mxpow (U L') j.+1) <= \tr (mxpow (U L) j.+1))%Re) /\ (0 < \tr (U L') < \tr (U L))%Re /\
  ((\tr (U L) < 1)%Re -> exists v v' N, (forall fuel, (N <= fuel)%N -> rt_lndet mie_bessels trans_bessels (at_distance c L) fuel conv m [:: k] = Some (Val [:: Fin v]) /\
      rt_lndet mie_bessels trans_bessels (at_distance c L') fuel conv m [:: k] = Some (Val [:: Fin v'])) /\ (v < v')%Re /\ (v' < 0)%Re).
Proof.
move=> c ra rb e u m k conv L L' e1 e2 hx hm ha hb hk ho hc h0 h1 U.
have so : solid_ok PEC by left.
have [[A eA] [B eB]] := mieAB_val e1 e2 so so hm ha hb hk.
have z1 : signs (c_lmax c) k (mieA mie_bessels c) by rewrite /mieA e1; apply: (pec_ext_signs _ _ _ _ _ _ hm ha hk).
have z2 : signs (c_lssmax c) k (mieB mie_bessels c) by rewrite /mieB e2 hx; apply: (pec_ext_signs _ _ _ _ _ _ hm hb hk).
have s1 := signs_signed z1; have s2 := signs_signed z2.
have one : (1%Re : R) * 1%Re = 1 by exact: mul1r.
have [_ [o1 o2]] := ho.
have [t1 t2] := distance_gap hx hm hk ho one s1 s2 h0 h1.
have f1 : (0 < 1 * (-1) ^ lmin m * entry TE (mieA mie_bessels c) (lmin m - 1)%coq_nat k)%Re by apply: (signs_first z1); lia.
have f2 : (0 < 1 * (-1) ^ lmin m * entry TE (mieB mie_bessels c) (lmin m - 1)%coq_nat k)%Re by apply: (signs_first z2); lia.
have [p0 p1] := distance_strict hx hm hk ho one s1 s2 h0 h1 f1 f2.
split; first exact: t1.
split; first by split.
have h2 : (0 < L')%Re by lra.
move=> ht; have [d d' hv] := t2 ht; have [N hN] := distance_run eA eB hm hk ho hc h0 h2 d d'.
exists (ln (\det (1%:M - U L))), (ln (\det (1%:M - U L'))), N; split; first exact: hN.
have aux (a b x y : R) : (a + (x - y) <= b -> y < x -> a < b)%Re by lra.
split; first exact: (aux _ _ _ _ hv p1).
have [_ r2] := @C61_perfect_reflectors (at_distance c L') ra rb e u m k conv e1 e2 hm ha hb h2 hk ho hc.
have [w [N2 [hw [_ hw2]]]] := r2 (Rlt_trans _ _ _ p1 ht).
have [_ ew] := hN (maxn N N2) (leq_maxl _ _); move: (hw (maxn N N2) (leq_maxr _ _)); rewrite ew => -[->].
have aux2 (a x : R) : (a <= - x -> 0 < x -> a < 0)%Re by lra.
exact: (aux2 _ _ hw2 p0).
Qed.
Print Assumptions C75_perfect_reflectors.

(** ** Non-vacuity: a gold sphere and a perfect reflector, and two perfect reflectors, in vacuum: beyond some distance the trace is below one *)
Example C75_gold : exists L0, forall L, (L0 <= L)%Re -> (\tr (trip exact_bessels (at_distance gold_in_vacuum L) 1 2) < 1)%Re /\ contrast 1 (Lorentz e_Gold None) (eps_spec [::]) (mu_val None) 2 /\
  contrast 1 PEC (eps_spec [::]) (mu_val None) 2 /\ some_orders gold_in_vacuum 1.
Proof.
have p2 : (0 < 2)%Re by lra.
have p1 : (0 < 1)%Re by lra.
have [g1 [g2 ho]] := C61_gold p2; have [_ [o1 o2]] := ho.
have [[A eA] [B eB]] := @exact_val gold_in_vacuum _ _ 1%Re 2%Re 2%Re _ _ erefl erefl (contrast_solid g1) (contrast_solid g2) vacuum_has p1 p2 p2.
have [L0 h] := @C62_far exact_bessels gold_in_vacuum 1 2%Re _ _ A B 1%Re erefl eA eB vacuum_has p2 p1 o1 o2.
exists L0 => L /h [ht _]; split; last by split.
by apply: Rle_lt_trans _ ht; exact: Rle_abs.
Qed.
