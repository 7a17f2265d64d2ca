(** * Comparison of two spheres in cavities *)
From Coq Require Import Reals.
From Coq Require Import List Lia Lra ZArith.
From mathcomp Require Import all_ssreflect ssralg ssrnum fingroup perm matrix mxalgebra poly mxpoly.
From Verif Require Import Base RStruct Mat_Model Mat_Spec Mat_Proofs Bessel_Model Scat_Model Scat_Spec Scat_Proofs Scat_Proofs4 Scat_Proofs7 Scat_Proofs9 Scat_Proofs10 Scat_Props2 Trans_Model Trans_Spec Trans_Proofs3
  Lin_Model Lin_Spec Bal_Proofs Lin_Proofs Trip_Proofs Lin_Proofs2 RT_Model RT_Spec RT_Spec2 RT_Proofs RT_Proofs2 RT_Proofs3 RT_Proofs4 RT_Proofs6 RT_Proofs7 RT_Proofs8 RT_Proofs9 RT_Proofs10
  RT_Props RT_Props2 RT_Props3 RT_Props5 Exp_Proofs2 Lap_Proofs2 Mono_Proofs Mono_Proofs2 Mono_Proofs3 RT_Props8 RT_Props9 Rad_Spec Rad_Proofs Rad_Proofs2 RT_Props10 Rad_Proofs3 Int_Proofs2 Ecc_Spec Ecc_Proofs Ecc_Proofs2.
Set Implicit Arguments.
Unset Strict Implicit.
Import GRing.Theory.
Local Open Scope ring_scope.
Delimit Scope R_scope with Re.

Lemma sqrt_prod_lt (a a' b b' p p' : R) : (0 <= a -> 0 <= b -> a <= a' -> b <= b' -> p <= p' -> 0 < a' -> 0 < b' -> 0 < p -> a < a' \/ b < b' \/ p < p' -> sqrt a * p * sqrt b < sqrt a' * p' * sqrt b')%Re.
Proof.
move=> ha0 hb0 haa hbb hpp ha1 hb1 hp h; have sa := sqrt_le_1 _ _ ha0 (Rlt_le _ _ ha1) haa; have sb := sqrt_le_1 _ _ hb0 (Rlt_le _ _ hb1) hbb.
have sa1 := sqrt_lt_R0 _ ha1; have sb1 := sqrt_lt_R0 _ hb1; have sa0 := sqrt_pos a; have sb0 := sqrt_pos b.
have aux (x y z x' y' z' : R) : (0 <= x <= x' -> 0 < y <= y' -> 0 <= z <= z' -> 0 < x' -> 0 < z' -> x < x' \/ z < z' \/ y < y' -> x * y * z < x' * y' * z')%Re.
  move=> [x0 x1] [y0 y1] [z0 z1] xp zp; have yp : (0 < y')%Re by lra.
  have q0 : (0 <= x * y)%Re by apply: Rmult_le_pos; lra.
  have q1 : (0 < x' * y')%Re by apply: Rmult_lt_0_compat.
  have q2 : (x * y <= x' * y')%Re by apply: Rmult_le_compat; lra.
  have fin1 : (x * y < x' * y' -> x * y * z < x' * y' * z')%Re.
    move=> h1; apply: (Rle_lt_trans _ (x * y * z')%Re); first by apply: Rmult_le_compat_l.
    by apply: Rmult_lt_compat_r.
  case=> [h1|[h1|h1]].
  - apply: fin1; apply: (Rlt_le_trans _ (x' * y)%Re); first by apply: Rmult_lt_compat_r.
    by apply: Rmult_le_compat_l; lra.
  - apply: (Rle_lt_trans _ (x' * y' * z)%Re); first by apply: Rmult_le_compat_r.
    by apply: Rmult_lt_compat_l.
  - apply: fin1; apply: (Rle_lt_trans _ (x' * y)%Re); first by apply: Rmult_le_compat_r; lra.
    by apply: Rmult_lt_compat_l.
apply: aux => //.
case: h => [h|[h|h]]; [left|right; left|right; right] => //; exact: sqrt_lt_1_alt.
Qed.

(** a sphere of radius ra and material m1, its centre at distance L of the centre of a cavity of radius rb in the material m2 *)
Definition placed (c : config) (L : R) (s1 s2 : sphere) : config := with_spheres (at_distance c L) s1 s2.

Section Cavity.
Context (c : config) (m1 m2 m1' m2' : material) (ra rb ra' rb' L L' : R) (e u : R -> R) (m : Z) (k s : R).
Let c0 := placed c L (Solid m1 ra) (Solid m2 rb).
Let c1 := placed c L' (Solid m1' ra') (Solid m2' rb').
Context (hm : has (c_med c) e u) (ha : (0 < ra)%Re) (hb : (0 < rb')%Re) (ha' : (ra <= ra')%Re) (hb' : (rb' <= rb)%Re) (hL : (0 < L)%Re) (hL' : (L <= L')%Re) (hk : (0 < k)%Re) (hx : c_ext c = false) (ho : some_orders c m).
Context (g1 : contrast s m1 e u k) (g2 : contrast s m2 e u k) (g1' : contrast s m1' e u k) (g2' : contrast s m2' e u k) (st1 : stronger s m1' m1 k) (st2 : stronger s m2' m2 k).
Lemma cav_pos : [/\ (0 < ra')%Re, (0 < rb)%Re & (0 < L')%Re].
Proof. by split; [exact: Rlt_le_trans ha ha'|exact: Rlt_le_trans hb hb'|exact: Rlt_le_trans hL hL']. Qed.
Lemma cav_signed0 : signed s (c_lmax c) k (mieA exact_bessels c0) /\ signed s (c_lssmax c) k (mieB exact_bessels c0).
Proof. by have [_ pb _] := cav_pos; split; [rewrite /mieA /c0 /=; apply: (ext_signed _ _ ha _ _ _ hm _ hk)|rewrite /mieB /c0 /= hx; apply: (int_signed _ _ pb _ _ _ hm _ hk)]. Qed.
Lemma cav_signed1 : signed s (c_lmax c) k (mieA exact_bessels c1) /\ signed s (c_lssmax c) k (mieB exact_bessels c1).
Proof. by have [pa _ _] := cav_pos; split; [rewrite /mieA /c1 /=; apply: (ext_signed _ _ pa _ _ _ hm _ hk)|rewrite /mieB /c1 /= hx; apply: (int_signed _ _ hb _ _ _ hm _ hk)]. Qed.
Lemma cav_A i : (i < c_lmax c)%coq_nat -> (s * (-1) ^ (i + 1)%coq_nat * entry TE (mieA exact_bessels c0) i k <= s * (-1) ^ (i + 1)%coq_nat * entry TE (mieA exact_bessels c1) i k)%Re /\
  (- (s * (-1) ^ (i + 1)%coq_nat * entry TM (mieA exact_bessels c0) i k) <= - (s * (-1) ^ (i + 1)%coq_nat * entry TM (mieA exact_bessels c1) i k))%Re.
Proof. by move=> hi; exact: (grown (c_lmax c) (c_med c) e u hm k hk s m1 m1' ra ra' i g1 g1' st1 ha ha' hi). Qed.
Lemma cav_B i : (i < c_lssmax c)%coq_nat -> (s * (-1) ^ (i + 1)%coq_nat * entry TE (mieB exact_bessels c0) i k <= s * (-1) ^ (i + 1)%coq_nat * entry TE (mieB exact_bessels c1) i k)%Re /\
  (- (s * (-1) ^ (i + 1)%coq_nat * entry TM (mieB exact_bessels c0) i k) <= - (s * (-1) ^ (i + 1)%coq_nat * entry TM (mieB exact_bessels c1) i k))%Re.
Proof. by move=> hi; rewrite /mieB /= hx; exact: (shrunk (c_lssmax c) (c_med c) e u hm k hk s m2 m2' rb rb' i g2 g2' st2 hb hb' hi). Qed.
Let rt d := flip (rt_gen exact_bessels exact_trans d m k).
Lemma cav_blocks d i : let j := Nat.add (lmin m - 1)%coq_nat i in
  [/\ pE (s_of m s) (aTE (rt d)) (a2 (rt d)) i = (s * (-1) ^ (j + 1)%coq_nat * entry TE (mieA exact_bessels d) j k)%Re, pM (s_of m s) (aTM (rt d)) (a2 (rt d)) i = (- (s * (-1) ^ (j + 1)%coq_nat * entry TM (mieA exact_bessels d) j k))%Re,
      pE (s_of m s) (bTE (rt d)) (b2 (rt d)) i = (s * (-1) ^ (j + 1)%coq_nat * entry TE (mieB exact_bessels d) j k)%Re & pM (s_of m s) (bTM (rt d)) (b2 (rt d)) i = (- (s * (-1) ^ (j + 1)%coq_nat * entry TM (mieB exact_bessels d) j k))%Re].
Proof. by move=> j; split; rewrite -(shift _ _ (lmin_shift m i)). Qed.
Let x L : R := (k * L * sqrt (e k))%Re.
Lemma cav_x d : (0 < d)%Re -> (0 < x d)%Re.
Proof.
move=> h0; have [_ [hp _]] := hm; have [hp' _] := hp k hk; apply: Rmult_lt_0_compat; last exact: sqrt_lt_R0.
exact: Rmult_lt_0_compat.
Qed.
Lemma cav_trans i j : (i < n1 c m)%N -> (j < n2 c m)%N -> exists P Q, [/\ grows P, grows Q & forall d s1 s2, (0 < d)%Re ->
  vv 1 (V0 (rt (placed c d s1 s2))) (V4 (rt (placed c d s1 s2))) i j = P (x d) /\ vv 1 (V2 (rt (placed c d s1 s2))) (V4 (rt (placed c d s1 s2))) i j = (2 * IZR m * Q (x d))%Re].
Proof.
move=> /ltP hi /ltP hj; have [P [Q [gP [gQ E]]]] := @trans_grows exact_bessels c m k e u hx hm hk (proj1 ho) i j hi hj.
exists P, Q; split=> // d s1 s2 hd; have [E1 [_ [E2 _]]] := E d hd.
have e1 : V0 (rt_gen exact_bessels exact_trans (placed c d s1 s2) m k) i j = ((-1) ^ (i + j)%coq_nat * P (x d))%Re by exact: E1.
have e2 : V2 (rt_gen exact_bessels exact_trans (placed c d s1 s2) m k) i j = ((-1) ^ (i + j)%coq_nat * (2 * IZR m * Q (x d)))%Re by exact: E2.
have sq : (-1) ^+ (i + j) * (-1) ^ (i + j)%coq_nat = 1 :> R by rewrite RpowE plusE -exprMn mulrNN mul1r expr1n.
have q0 : V0 (rt (placed c d s1 s2)) i j = (-1) ^+ (i + j) * V0 (rt_gen exact_bessels exact_trans (placed c d s1 s2) m k) i j by [].
have q2 : V2 (rt (placed c d s1 s2)) i j = (-1) ^+ (i + j) * V2 (rt_gen exact_bessels exact_trans (placed c d s1 s2) m k) i j by [].
have q4 : V4 (rt (placed c d s1 s2)) i j = 0%Re by [].
split.
- by rewrite /vv q0 e1 q4 exp_0 Rmult_1_r !RmultE mul1r mulrA sq mul1r.
- by rewrite /vv q2 e2 q4 exp_0 Rmult_1_r !RmultE mul1r mulrA sq mul1r.
Qed.
Lemma grows_le P a b : grows P -> (0 < a)%Re -> (a <= b)%Re -> (P a <= P b)%Re.
Proof. by move=> [_ h] ha0 [hab|->]; [left; apply: h|right]. Qed.
Lemma cav_positive d s1 s2 : (0 < d)%Re -> signed s (c_lmax c) k (mieA exact_bessels (placed c d s1 s2)) -> signed s (c_lssmax c) k (mieB exact_bessels (placed c d s1 s2)) ->
  positive (s_of m s) (s_of m s) 1 1 (n1 c m) (n2 c m) (rt (placed c d s1 s2)).
Proof.
move=> hd f1 f2; have [o0 [o1 o2]] := ho; split.
- move=> i /ltP; rewrite /n1 /lmin => hi; have hi' : (Nat.add (lmin m - 1)%coq_nat i < c_lmax c)%coq_nat by rewrite /lmin; lia.
  have [-> -> _ _] := cav_blocks (placed c d s1 s2) i; exact: (f1 _ hi').
- move=> i /ltP; rewrite /n2 /lmin => hi; have hi' : (Nat.add (lmin m - 1)%coq_nat i < c_lssmax c)%coq_nat by rewrite /lmin; lia.
  have [_ _ -> ->] := cav_blocks (placed c d s1 s2) i; exact: (f2 _ hi').
- move=> i j hi hj; have [P [Q [gP gQ E]]] := cav_trans hi hj; have [-> ->] := E d s1 s2 hd.
  split; first by left; apply: (proj1 gP); exact: cav_x.
  by apply: Rmult_le_pos; [exact: (m_nonneg ho)|left; apply: (proj1 gQ); exact: cav_x].
Qed.
Lemma x_le : (x L <= x L')%Re.
Proof. by apply: Rmult_le_compat_r; [exact: sqrt_pos|apply: Rmult_le_compat_l; [exact: Rlt_le|]]. Qed.
Lemma cav_smaller : smaller (s_of m s) (s_of m s) 1 1 (n1 c m) (n2 c m) (rt c0) (rt c1).
Proof.
have [o0 [o1 o2]] := ho; have [_ _ pL] := cav_pos.
split.
- move=> i /ltP; rewrite /n1 /lmin => hi; have hi' : (Nat.add (lmin m - 1)%coq_nat i < c_lmax c)%coq_nat by rewrite /lmin; lia.
  have [a b] := cav_A hi'; have [-> -> _ _] := cav_blocks c0 i; have [-> -> _ _] := cav_blocks c1 i.
  by split; [exact: a|exact: b].
- move=> i /ltP; rewrite /n2 /lmin => hi; have hi' : (Nat.add (lmin m - 1)%coq_nat i < c_lssmax c)%coq_nat by rewrite /lmin; lia.
  have [a b] := cav_B hi'; have [_ _ -> ->] := cav_blocks c0 i; have [_ _ -> ->] := cav_blocks c1 i.
  by split; [exact: a|exact: b].
- move=> i j hi hj; have [P [Q [gP gQ E]]] := cav_trans hi hj; have [-> ->] := E L (Solid m1 ra) (Solid m2 rb) hL; have [-> ->] := E L' (Solid m1' ra') (Solid m2' rb') pL.
  have x0 := cav_x hL; have x1 := x_le.
  split; first exact: grows_le.
  by apply: Rmult_le_compat_l; [exact: (m_nonneg ho)|exact: grows_le].
Qed.
Let U0 := etrip exact_bessels c0 m k.
Let U1 := etrip exact_bessels c1 m k.
Let one : (1 : R) * 1 = 1. Proof. exact: mulr1. Qed.
Lemma cav_tr d : \tr (round_trip (n1 d m) (n2 d m) (rt d)) = \tr (etrip exact_bessels d m k).
Proof. by have [_ h] := flip_same (n1 d m) (n2 d m) (rt_gen exact_bessels exact_trans d m k); have := h 0%N; rewrite /mxpow /= !mulmx1. Qed.
Lemma cav_gap : (forall j, (0 <= \tr (mxpow U0 j.+1) <= \tr (mxpow U1 j.+1))%Re) /\
  ((\tr U1 < 1)%Re -> [/\ (0 < \det (1%:M - U1))%Re, (0 < \det (1%:M - U0))%Re & (ln (\det (1%:M - U1)) + (\tr U1 - \tr U0) <= ln (\det (1%:M - U0)))%Re]).
Proof.
have [f1 f2] := cav_signed0; have [f1' f2'] := cav_signed1; have hs := contrast_sq g1; have [_ _ pL] := cav_pos.
have p0 := cav_positive hL f1 f2; have p1 := cav_positive pL f1' f2'.
have [q1 q2] := compare_trips (leqnn _) (leqnn _) (parity_flip (@parity_gen exact_bessels exact_trans c0 m k)) (parity_flip (@parity_gen exact_bessels exact_trans c1 m k)) (s_sq m hs) (s_sq m hs) (s_sq m hs) one one p0 p1 cav_smaller.
have [z1 z2] := flip_same (n1 c0 m) (n2 c0 m) (rt_gen exact_bessels exact_trans c0 m k).
have [w1 w2] := flip_same (n1 c1 m) (n2 c1 m) (rt_gen exact_bessels exact_trans c1 m k).
split; first by move=> j; rewrite -z2 -w2; exact: q1.
have q2' : (\tr (round_trip (n1 c1 m) (n2 c1 m) (rt c1)) < 1)%Re -> [/\ (0 < \det (1%:M - round_trip (n1 c1 m) (n2 c1 m) (rt c1)))%Re, (0 < \det (1%:M - round_trip (n1 c0 m) (n2 c0 m) (rt c0)))%Re &
  (ln (\det (1%:M - round_trip (n1 c1 m) (n2 c1 m) (rt c1))) + (\tr (round_trip (n1 c1 m) (n2 c1 m) (rt c1)) - \tr (round_trip (n1 c0 m) (n2 c0 m) (rt c0))) <= ln (\det (1%:M - round_trip (n1 c0 m) (n2 c0 m) (rt c0))))%Re] by exact: q2.
by rewrite !cav_tr /rt z1 w1 in q2'.
Qed.
(** strictly, if a TE coefficient of the first order or the distance is strictly larger *)
Lemma cav_strict : let A d := (s * (-1) ^ ((lmin m - 1)%coq_nat + 1)%coq_nat * entry TE (mieA exact_bessels d) (lmin m - 1)%coq_nat k)%Re in
  let B d := (s * (-1) ^ ((lmin m - 1)%coq_nat + 1)%coq_nat * entry TE (mieB exact_bessels d) (lmin m - 1)%coq_nat k)%Re in
  (0 < A c1)%Re -> (0 < B c1)%Re -> (A c0 < A c1)%Re \/ (B c0 < B c1)%Re \/ (L < L')%Re -> (\tr U0 < \tr U1)%Re.
Proof.
move=> A B a1 b1 hlt; have [f1 f2] := cav_signed0; have [f1' f2'] := cav_signed1; have hs := contrast_sq g1; have [_ _ pL] := cav_pos.
have p0 := cav_positive hL f1 f2; have p1 := cav_positive pL f1' f2'.
have [n0 ns0] := orders_pos ho.
rewrite /U0 /U1 -!cav_tr.
apply: (compare_strict (leqnn _) (leqnn _) (parity_flip (@parity_gen exact_bessels exact_trans c0 m k)) (parity_flip (@parity_gen exact_bessels exact_trans c1 m k)) (s_sq m hs) (s_sq m hs) (s_sq m hs) one one p0 p1 cav_smaller (i := 0%N) (s := 0%N) n0 ns0).
have [P [Q [gP gQ E]]] := cav_trans n0 ns0.
have [e0 _] := E L (Solid m1 ra) (Solid m2 rb) hL; have [e1 _] := E L' (Solid m1' ra') (Solid m2' rb') pL.
rewrite /pad n0 ns0 [true && true]/= e0 e1.
have l0 : Nat.add (lmin m - 1)%coq_nat 0 = (lmin m - 1)%coq_nat by lia.
have eA d : pE (s_of m s) (aTE (rt d)) (a2 (rt d)) 0 = A d.
  by have [-> _ _ _] := cav_blocks d 0%N; rewrite l0.
have eB d : pE (s_of m s) (bTE (rt d)) (b2 (rt d)) 0 = B d.
  by have [_ _ -> _] := cav_blocks d 0%N; rewrite l0.
rewrite !eA !eB; have [o0 [o1 o2]] := ho.
have lA : ((lmin m - 1)%coq_nat < c_lmax c)%coq_nat by rewrite /lmin; lia.
have lB : ((lmin m - 1)%coq_nat < c_lssmax c)%coq_nat by rewrite /lmin; lia.
have [zA _] := f1 _ lA; have [zB _] := f2 _ lB; have [wA _] := cav_A lA; have [wB _] := cav_B lB.
have x0 := cav_x hL; have x1 := x_le.
apply: sqrt_prod_lt => //; [exact: grows_le|exact: (proj1 gP)|].
case: hlt => [h|[h|h]]; [by left|by right; left|right; right].
apply: (proj2 gP) => //; apply: Rmult_lt_compat_r; last exact: Rmult_lt_compat_l.
by have [_ [hp _]] := hm; have [hp' _] := hp k hk; exact: sqrt_lt_R0.
Qed.
Lemma cav_run conv : (conv < 1)%Re -> (0 < \det (1%:M - U0))%Re -> (0 < \det (1%:M - U1))%Re ->
  exists F, forall fuel, (F <= fuel)%N -> rt_lndet exact_bessels exact_trans c0 fuel conv m [:: k] = Some (Val [:: Fin (ln (\det (1%:M - U0)))]) /\
    rt_lndet exact_bessels exact_trans c1 fuel conv m [:: k] = Some (Val [:: Fin (ln (\det (1%:M - U1)))]).
Proof.
move=> hc d d'; have [pa pb pL] := cav_pos.
have [[A eA] [B eB]] := @exact_val c0 m1 m2 ra rb k e u erefl erefl (contrast_solid g1) (contrast_solid g2) hm ha pb hk.
have [[A' eA'] [B' eB']] := @exact_val c1 m1' m2' ra' rb' k e u erefl erefl (contrast_solid g1') (contrast_solid g2') hm pa hb hk.
have [F hF] := @elndet_total exact_bessels c0 m k A B e u conv eA eB hm hL hk ho hc.
have [F' hF'] := @elndet_total exact_bessels c1 m k A' B' e u conv eA' eB' hm pL hk ho hc.
exists (maxn F F') => fuel; rewrite geq_max => /andP [f1 f2]; split.
- by rewrite (hF _ f1) (lnE d).
- by rewrite (hF' _ f2) (lnE d').
Qed.
End Cavity.

(** the sign of the logarithm of the determinant *)
Lemma cav_attract c m1 m2 ra rb e u m k s : c_1 c = Solid m1 ra -> c_2 c = Solid m2 rb -> c_ext c = false -> has (c_med c) e u -> (0 < ra)%Re -> (0 < rb)%Re -> (0 < k)%Re ->
  some_orders c m -> contrast s m1 e u k -> contrast s m2 e u k -> let U := etrip exact_bessels c m k in
  (\tr U < 1)%Re -> exists v, ln_abs_det (1%:M - U) = Fin v /\ (ln (1 - \tr U) <= v <= - \tr U)%Re.
Proof.
move=> e1 e2 hx hm ha hb hk ho g1 g2 U.
have s1 : signed s (c_lmax c) k (mieA exact_bessels c) by rewrite /mieA e1; apply: (ext_signed _ _ ha _ _ _ hm _ hk).
have s2 : signed s (c_lssmax c) k (mieB exact_bessels c) by rewrite /mieB e2 hx; apply: (int_signed _ _ hb _ _ _ hm _ hk).
have [d1 d2] := solid_definite ho s1 s2; have ss := contrast_sq g1.
have sq : s_of m s * s_of m s = 1 by rewrite s_ofM.
by have [_ h2] := attract (@parity_gen exact_bessels exact_trans c m k) sq sq d1 d2 sq.
Qed.
