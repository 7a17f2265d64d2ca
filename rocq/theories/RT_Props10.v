(** * Property C77: larger spheres, and spheres of denser material, attract each other more strongly *)
From Coq Require Import Reals.
From Coq Require Import List Lia Lra ZArith.
From mathcomp Require Import all_ssreflect ssralg ssrnum fingroup perm matrix mxalgebra poly mxpoly.
From Verif Require Import Base RStruct Mat_Model Mat_Spec Mat_Proofs Bessel_Model Scat_Model Scat_Spec Scat_Proofs Scat_Proofs4 Scat_Proofs7 Scat_Proofs9 Scat_Proofs10 Scat_Props2 Trans_Model Trans_Spec Trans_Proofs3
  Lin_Model Lin_Spec Bal_Proofs Lin_Proofs Trip_Proofs Lin_Proofs2 RT_Model RT_Spec RT_Spec2 RT_Proofs RT_Proofs2 RT_Proofs3 RT_Proofs4 RT_Proofs6 RT_Proofs7 RT_Proofs8 RT_Proofs9 RT_Proofs10
  RT_Props RT_Props2 RT_Props3 RT_Props5 Exp_Proofs2 Lap_Proofs2 Mono_Proofs Mono_Proofs2 Mono_Proofs3 RT_Props8 RT_Props9 Rad_Spec Rad_Proofs Rad_Proofs2.
Set Implicit Arguments.
Unset Strict Implicit.
Import GRing.Theory.
Local Open Scope ring_scope.
Delimit Scope R_scope with Re.

(** ** the Mie coefficients grow with the radius and with the contrast *)
Theorem C77_coefficients : forall lmax m e u k s mat mat' r r' j, has m e u -> (0 < k)%Re -> contrast s mat e u k -> contrast s mat' e u k -> stronger s mat' mat k -> (0 < r)%Re -> (r <= r')%Re -> (j < lmax)%coq_nat ->
  let T pick mat r := entry pick (fun ks => mie exact_bessels ks 0 (Z.of_nat lmax) r mat m) j k in
  (0 <= s * (-1) ^ (j + 1)%coq_nat * T TE mat r <= s * (-1) ^ (j + 1)%coq_nat * T TE mat' r')%Re /\
  (0 <= - (s * (-1) ^ (j + 1)%coq_nat * T TM mat r) <= - (s * (-1) ^ (j + 1)%coq_nat * T TM mat' r'))%Re.
Proof.
move=> lmax m e u k s mat mat' r r' j hm hk g g' st hr hr' hj T.
have [a b] := ext_signed lmax r hr m e u hm k hk s mat g j hj.
have [a' b'] := grown lmax m e u hm k hk s mat mat' r r' j g g' st hr hr' hj.
by split; split.
Qed.
Print Assumptions C77_coefficients.

(** ** two pairs of spheres at the same places *)
Section Spheres.
Context (c : config) (m1 m2 m1' m2' : material) (ra rb ra' rb' : R) (e u : R -> R) (m : Z) (k s : R).
Let c0 := with_spheres c (Solid m1 ra) (Solid m2 rb).
Let c1 := with_spheres c (Solid m1' ra') (Solid m2' rb').
Context (hm : has (c_med c) e u) (ha : (0 < ra)%Re) (hb : (0 < rb)%Re) (ha' : (ra <= ra')%Re) (hb' : (rb <= rb')%Re) (hL : (0 < c_L c)%Re) (hk : (0 < k)%Re) (hx : c_ext c = true) (ho : some_orders c m).
Context (g1 : contrast s m1 e u k) (g2 : contrast s m2 e u k) (g1' : contrast s m1' e u k) (g2' : contrast s m2' e u k) (st1 : stronger s m1' m1 k) (st2 : stronger s m2' m2 k).
Lemma radii_pos : (0 < ra')%Re /\ (0 < rb')%Re.
Proof. by split; [exact: Rlt_le_trans ha ha'|exact: Rlt_le_trans hb hb']. Qed.
Lemma signed_c0 : signed s (c_lmax c) k (mieA exact_bessels c0) /\ signed s (c_lssmax c) k (mieB exact_bessels c0).
Proof. by split; [rewrite /mieA /c0 /=; apply: (ext_signed _ _ ha _ _ _ hm _ hk)|rewrite /mieB /c0 /= hx; apply: (ext_signed _ _ hb _ _ _ hm _ hk)]. Qed.
Lemma signed_c1 : signed s (c_lmax c) k (mieA exact_bessels c1) /\ signed s (c_lssmax c) k (mieB exact_bessels c1).
Proof. by have [pa pb] := radii_pos; split; [rewrite /mieA /c1 /=; apply: (ext_signed _ _ pa _ _ _ hm _ hk)|rewrite /mieB /c1 /= hx; apply: (ext_signed _ _ pb _ _ _ hm _ hk)]. Qed.
Lemma grown_A i : (i < c_lmax c)%coq_nat -> (s * (-1) ^ (i + 1)%coq_nat * entry TE (mieA exact_bessels c0) i k <= s * (-1) ^ (i + 1)%coq_nat * entry TE (mieA exact_bessels c1) i k)%Re /\
  (- (s * (-1) ^ (i + 1)%coq_nat * entry TM (mieA exact_bessels c0) i k) <= - (s * (-1) ^ (i + 1)%coq_nat * entry TM (mieA exact_bessels c1) i k))%Re.
Proof. by move=> hi; exact: (grown (c_lmax c) (c_med c) e u hm k hk s m1 m1' ra ra' i g1 g1' st1 ha ha' hi). Qed.
Lemma grown_B i : (i < c_lssmax c)%coq_nat -> (s * (-1) ^ (i + 1)%coq_nat * entry TE (mieB exact_bessels c0) i k <= s * (-1) ^ (i + 1)%coq_nat * entry TE (mieB exact_bessels c1) i k)%Re /\
  (- (s * (-1) ^ (i + 1)%coq_nat * entry TM (mieB exact_bessels c0) i k) <= - (s * (-1) ^ (i + 1)%coq_nat * entry TM (mieB exact_bessels c1) i k))%Re.
Proof. by move=> hi; rewrite /mieB /= hx; exact: (grown (c_lssmax c) (c_med c) e u hm k hk s m2 m2' rb rb' i g2 g2' st2 hb hb' hi). Qed.
(** the signs of the blocks of order |m| and larger *)
Lemma shift (t : R) i : (lmin m + i)%coq_nat = (Nat.add (lmin m - 1)%coq_nat i + 1)%coq_nat -> s_of m s * (-1) ^+ i * (t * exp 0)%Re = (s * (-1) ^ (Nat.add (lmin m - 1)%coq_nat i + 1)%coq_nat * t)%Re.
Proof. by move=> <-; rewrite exp_0 Rmult_1_r /s_of -(mulrA s) -exprD RpowE plusE. Qed.
Lemma lmin_shift i : (lmin m + i)%coq_nat = (Nat.add (lmin m - 1)%coq_nat i + 1)%coq_nat.
Proof. by rewrite /lmin; lia. Qed.
Lemma blocks d i : let rt := rt_with exact_bessels d m k in let j := Nat.add (lmin m - 1)%coq_nat i in
  [/\ pE (s_of m s) (aTE rt) (a2 rt) i = (s * (-1) ^ (j + 1)%coq_nat * entry TE (mieA exact_bessels d) j k)%Re, pM (s_of m s) (aTM rt) (a2 rt) i = (- (s * (-1) ^ (j + 1)%coq_nat * entry TM (mieA exact_bessels d) j k))%Re,
      pE (s_of m s) (bTE rt) (b2 rt) i = (s * (-1) ^ (j + 1)%coq_nat * entry TE (mieB exact_bessels d) j k)%Re & pM (s_of m s) (bTM rt) (b2 rt) i = (- (s * (-1) ^ (j + 1)%coq_nat * entry TM (mieB exact_bessels d) j k))%Re].
Proof. by move=> rt j; split; rewrite -(shift _ (lmin_shift i)). Qed.
Lemma spheres_smaller : smaller (s_of m s) (s_of m s) (sgnZ m) (- sgnZ m) (n1 c m) (n2 c m) (rt_with exact_bessels c0 m k) (rt_with exact_bessels c1 m k).
Proof.
have [o0 [o1 o2]] := ho.
split.
- move=> i /ltP; rewrite /n1 /lmin => hi; have hi' : (Nat.add (lmin m - 1)%coq_nat i < c_lmax c)%coq_nat by rewrite /lmin; lia.
  have [a b] := grown_A hi'; have [-> -> _ _] := blocks c0 i; have [-> -> _ _] := blocks c1 i.
  by split; [exact: a|exact: b].
- move=> i /ltP; rewrite /n2 /lmin => hi; have hi' : (Nat.add (lmin m - 1)%coq_nat i < c_lssmax c)%coq_nat by rewrite /lmin; lia.
  have [a b] := grown_B hi'; have [_ _ -> ->] := blocks c0 i; have [_ _ -> ->] := blocks c1 i.
  by split; [exact: a|exact: b].
- by move=> i j _ _; split; apply: Rle_refl.
Qed.
Let U0 := trip exact_bessels c0 m k.
Let U1 := trip exact_bessels c1 m k.
Lemma spheres_positive (d : config) : c_ext d = true -> has (c_med d) e u -> (0 < c_L d)%Re -> some_orders d m -> signed s (c_lmax d) k (mieA exact_bessels d) -> signed s (c_lssmax d) k (mieB exact_bessels d) ->
  positive (s_of m s) (s_of m s) (sgnZ m) (- sgnZ m) (n1 d m) (n2 d m) (rt_with exact_bessels d m k).
Proof. by move=> dx dm dL dp f1 f2; have := @rt_positive exact_bessels d m k e u s dx dm hk dp f1 f2 (c_L d) dL; rewrite same_distance. Qed.
Lemma spheres_gap : (forall j, (0 <= \tr (mxpow U0 j.+1) <= \tr (mxpow U1 j.+1))%Re) /\
  ((\tr U1 < 1)%Re -> [/\ (0 < \det (1%:M - U1))%Re, (0 < \det (1%:M - U0))%Re & (ln (\det (1%:M - U1)) + (\tr U1 - \tr U0) <= ln (\det (1%:M - U0)))%Re]).
Proof.
have [f1 f2] := signed_c0; have [f1' f2'] := signed_c1; have hs := contrast_sq g1.
have p0 := @spheres_positive c0 hx hm hL ho f1 f2; have p1 := @spheres_positive c1 hx hm hL ho f1' f2'.
exact: (compare_trips (leqnn _) (leqnn _) (@parity_rt exact_bessels c0 m k) (@parity_rt exact_bessels c1 m k) (s_sq m hs) (s_sq m hs) (s_sq m hs) (sg_sq m) (sg_sq' m) p0 p1 spheres_smaller).
Qed.
(** strictly, if a TE coefficient of the first order is strictly larger and the other sphere scatters TE waves *)
Lemma spheres_strict : let A d := (s * (-1) ^ ((lmin m - 1)%coq_nat + 1)%coq_nat * entry TE (mieA exact_bessels d) (lmin m - 1)%coq_nat k)%Re in
  let B d := (s * (-1) ^ ((lmin m - 1)%coq_nat + 1)%coq_nat * entry TE (mieB exact_bessels d) (lmin m - 1)%coq_nat k)%Re in
  (0 < A c1)%Re -> (0 < B c1)%Re -> (A c0 < A c1)%Re \/ (B c0 < B c1)%Re -> (\tr U0 < \tr U1)%Re.
Proof.
move=> A B a1 b1 hlt; have [f1 f2] := signed_c0; have [f1' f2'] := signed_c1; have hs := contrast_sq g1.
have p0 := @spheres_positive c0 hx hm hL ho f1 f2; have p1 := @spheres_positive c1 hx hm hL ho f1' f2'.
have [n0 ns0] := orders_pos ho.
apply: (compare_strict (leqnn _) (leqnn _) (@parity_rt exact_bessels c0 m k) (@parity_rt exact_bessels c1 m k) (s_sq m hs) (s_sq m hs) (s_sq m hs) (sg_sq m) (sg_sq' m) p0 p1 spheres_smaller (i := 0%N) (s := 0%N) n0 ns0).
have [P [Q [fp [_ E]]]] := @trans_falls exact_bessels c m k e u hx hm hk (proj1 ho) 0%N 0%N (elimT ltP n0) (elimT ltP ns0).
have [E1 _] := E (c_L c) hL.
have xp : (0 < k * c_L c * sqrt (e k))%Re.
  have [_ [hp _]] := hm; have [hp' _] := hp k hk; apply: Rmult_lt_0_compat; last exact: sqrt_lt_R0.
  exact: Rmult_lt_0_compat.
have F d : c_med d = c_med c -> c_L d = c_L c -> c_lmax d = c_lmax c -> c_lssmax d = c_lssmax c -> c_ext d = c_ext c ->
  vv (sgnZ m) (V0 (rt_with exact_bessels d m k)) (V4 (rt_with exact_bessels d m k)) 0 0 = P (k * c_L c * sqrt (e k))%Re.
  by move=> q1 q2 q3 q4 q5; rewrite -E1 /vv /= q1 q2 q3 q4 q5.
have v0 : (0 < P (k * c_L c * sqrt (e k)))%Re by exact: (proj1 fp).
rewrite /pad n0 ns0 [true && true]/= !F //.
have l0 : Nat.add (lmin m - 1)%coq_nat 0 = (lmin m - 1)%coq_nat by lia.
have eA d : pE (s_of m s) (aTE (rt_with exact_bessels d m k)) (a2 (rt_with exact_bessels d m k)) 0 = A d.
  by have [-> _ _ _] := blocks d 0%N; rewrite l0.
have eB d : pE (s_of m s) (bTE (rt_with exact_bessels d m k)) (b2 (rt_with exact_bessels d m k)) 0 = B d.
  by have [_ _ -> _] := blocks d 0%N; rewrite l0.
rewrite !eA !eB; have [o0 [o1 o2]] := ho.
have lA : ((lmin m - 1)%coq_nat < c_lmax c)%coq_nat by rewrite /lmin; lia.
have lB : ((lmin m - 1)%coq_nat < c_lssmax c)%coq_nat by rewrite /lmin; lia.
have [zA _] := f1 _ lA; have [zB _] := f2 _ lB; have [wA _] := grown_A lA; have [wB _] := grown_B lB.
have aux (a a' b b' p : R) : (0 <= a -> 0 <= b -> a <= a' -> b <= b' -> 0 < a' -> 0 < b' -> 0 < p -> a < a' \/ b < b' -> sqrt a * p * sqrt b < sqrt a' * p * sqrt b')%Re.
  move=> ha0 hb0 haa hbb ha1 hb1 hp h; have sa := sqrt_le_1 _ _ ha0 (Rlt_le _ _ ha1) haa; have sb := sqrt_le_1 _ _ hb0 (Rlt_le _ _ hb1) hbb.
  have sa1 := sqrt_lt_R0 _ ha1; have sb1 := sqrt_lt_R0 _ hb1; have sa0 := sqrt_pos a; have sb0 := sqrt_pos b.
  case: h => h.
  - have q := sqrt_lt_1 _ _ ha0 (Rlt_le _ _ ha1) h.
    apply: (Rle_lt_trans _ (sqrt a * p * sqrt b')%Re); first by apply: Rmult_le_compat_l => //; apply: Rmult_le_pos => //; exact: Rlt_le.
    by apply: Rmult_lt_compat_r => //; apply: Rmult_lt_compat_r.
  - have q := sqrt_lt_1 _ _ hb0 (Rlt_le _ _ hb1) h.
    apply: (Rle_lt_trans _ (sqrt a' * p * sqrt b)%Re); first by apply: Rmult_le_compat_r => //; apply: Rmult_le_compat_r => //; exact: Rlt_le.
    by apply: Rmult_lt_compat_l => //; apply: Rmult_lt_0_compat.
by apply: aux.
Qed.
Lemma spheres_run conv : (conv < 1)%Re -> (0 < \det (1%:M - U0))%Re -> (0 < \det (1%:M - U1))%Re ->
  exists F, forall fuel, (F <= fuel)%N -> rt_lndet exact_bessels trans_bessels c0 fuel conv m [:: k] = Some (Val [:: Fin (ln (\det (1%:M - U0)))]) /\
    rt_lndet exact_bessels trans_bessels c1 fuel conv m [:: k] = Some (Val [:: Fin (ln (\det (1%:M - U1)))]).
Proof.
move=> hc d d'; have [_ [o1 o2]] := ho; have [pa pb] := radii_pos.
have [[A eA] [B eB]] := @exact_val c0 m1 m2 ra rb k e u erefl erefl (contrast_solid g1) (contrast_solid g2) hm ha hb hk.
have [[A' eA'] [B' eB']] := @exact_val c1 m1' m2' ra' rb' k e u erefl erefl (contrast_solid g1') (contrast_solid g2') hm pa pb hk.
have [F hF] := @lndet_total exact_bessels c0 m k A B e u conv eA eB hm hL hk o1 o2 hc.
have [F' hF'] := @lndet_total exact_bessels c1 m k A' B' e u conv eA' eB' hm hL hk o1 o2 hc.
exists (maxn F F') => fuel; rewrite geq_max => /andP [f1 f2]; split.
- by rewrite (hF _ f1) (lnE d).
- by rewrite (hF' _ f2) (lnE d').
Qed.
End Spheres.

Theorem C77_spheres : forall c m1 m2 m1' m2' ra rb ra' rb' e u m k s conv, has (c_med c) e u -> (0 < ra)%Re -> (0 < rb)%Re -> (ra <= ra')%Re -> (rb <= rb')%Re -> (0 < c_L c)%Re -> (0 < k)%Re -> c_ext c = true -> some_orders c m ->
  contrast s m1 e u k -> contrast s m2 e u k -> contrast s m1' e u k -> contrast s m2' e u k -> stronger s m1' m1 k -> stronger s m2' m2 k -> (conv < 1)%Re ->
  let c0 := with_spheres c (Solid m1 ra) (Solid m2 rb) in let c1 := with_spheres c (Solid m1' ra') (Solid m2' rb') in let U c := trip exact_bessels c m k in
  (forall j, (0 <= \tr (mxpow (U c0) j.+1) <= \tr (mxpow (U c1) j.+1))%Re) /\
  ((\tr (U c1) < 1)%Re -> exists v v' F, (forall fuel, (F <= fuel)%N -> rt_lndet exact_bessels trans_bessels c0 fuel conv m [:: k] = Some (Val [:: Fin v]) /\
      rt_lndet exact_bessels trans_bessels c1 fuel conv m [:: k] = Some (Val [:: Fin v'])) /\ (v' + (\tr (U c1) - \tr (U c0)) <= v <= - \tr (U c0))%Re).
Proof.
move=> c m1 m2 m1' m2' ra rb ra' rb' e u m k s conv hm ha hb ha' hb' hL hk hx ho g1 g2 g1' g2' st1 st2 hc c0 c1 U.
have [t1 t2] := spheres_gap hm ha hb ha' hb' hL hk hx ho g1 g2 g1' g2' st1 st2.
split; first exact: t1.
move=> ht; have [d d' hv] := t2 ht; have [F hF] := spheres_run hm ha hb ha' hb' hL hk ho g1 g2 g1' g2' hc d' d.
exists (ln (\det (1%:M - U c0))), (ln (\det (1%:M - U c1))), F; split; first exact: hF.
split; first exact: hv.
have [_ r2] := @C61_attraction c0 m1 m2 ra rb e u m k s conv erefl erefl hm ha hb hL hk ho g1 g2 hc.
have [_ tt] := t1 0%N; rewrite /mxpow /= !mulmx1 in tt.
have [w [F2 [hw [_ hw2]]]] := r2 (Rle_lt_trans _ _ _ tt ht).
have [ew _] := hF (maxn F F2) (leq_maxl _ _); move: (hw (maxn F F2) (leq_maxr _ _)); rewrite ew => -[->]; exact: hw2.
Qed.
Print Assumptions C77_spheres.

(** ** perfect reflectors attract each other at least as strongly as any denser bodies of the same radii *)
Theorem C77_bound : forall c m1 m2 ra rb e u m k conv, has (c_med c) e u -> (0 < ra)%Re -> (0 < rb)%Re -> (0 < c_L c)%Re -> (0 < k)%Re -> c_ext c = true -> some_orders c m ->
  contrast 1 m1 e u k -> contrast 1 m2 e u k -> (conv < 1)%Re ->
  let c0 := with_spheres c (Solid m1 ra) (Solid m2 rb) in let c1 := with_spheres c (Solid PEC ra) (Solid PEC rb) in let U c := trip exact_bessels c m k in
  (forall j, (0 <= \tr (mxpow (U c0) j.+1) <= \tr (mxpow (U c1) j.+1))%Re) /\
  ((\tr (U c1) < 1)%Re -> exists v v' F, (forall fuel, (F <= fuel)%N -> rt_lndet exact_bessels trans_bessels c0 fuel conv m [:: k] = Some (Val [:: Fin v]) /\
      rt_lndet exact_bessels trans_bessels c1 fuel conv m [:: k] = Some (Val [:: Fin v'])) /\ (v' <= v <= 0)%Re).
Proof.
move=> c m1 m2 ra rb e u m k conv hm ha hb hL hk hx ho g1 g2 hc c0 c1 U.
have gp : contrast 1 PEC e u k by left.
have st mm : stronger 1 PEC mm k by left.
have [t1 t2] := @C77_spheres c m1 m2 PEC PEC ra rb ra rb e u m k 1 conv hm ha hb (Rle_refl ra) (Rle_refl rb) hL hk hx ho g1 g2 gp gp (st m1) (st m2) hc.
split; first exact: t1.
move=> ht; have [v [v' [F [hF [h1 h2]]]]] := t2 ht; exists v, v', F; split; first exact: hF.
have := t1 0%N; rewrite /mxpow /= !mulmx1 => -[z1 z2].
have aux (a b x y : R) : (a + (x - y) <= b -> b <= - y -> 0 <= y -> y <= x -> a <= b <= 0)%Re by lra.
exact: (aux _ _ _ _ h1 h2 z1 z2).
Qed.
Print Assumptions C77_bound.

(** ** two perfect reflectors: strictly stronger if one of them is strictly larger *)
Theorem C77_perfect_reflectors : forall c ra rb ra' rb' e u m k conv, has (c_med c) e u -> (0 < ra)%Re -> (0 < rb)%Re -> (ra <= ra')%Re -> (rb <= rb')%Re -> (ra < ra')%Re \/ (rb < rb')%Re ->
  (0 < c_L c)%Re -> (0 < k)%Re -> c_ext c = true -> some_orders c m -> (conv < 1)%Re ->
  let c0 := with_spheres c (Solid PEC ra) (Solid PEC rb) in let c1 := with_spheres c (Solid PEC ra') (Solid PEC rb') in let U c := trip exact_bessels c m k in
  (0 <= \tr (U c0) < \tr (U c1))%Re /\
  ((\tr (U c1) < 1)%Re -> exists v v' F, (forall fuel, (F <= fuel)%N -> rt_lndet exact_bessels trans_bessels c0 fuel conv m [:: k] = Some (Val [:: Fin v]) /\
      rt_lndet exact_bessels trans_bessels c1 fuel conv m [:: k] = Some (Val [:: Fin v'])) /\ (v' < v)%Re /\ (v <= 0)%Re).
Proof.
move=> c ra rb ra' rb' e u m k conv hm ha hb ha' hb' hlt hL hk hx ho hc c0 c1 U.
have gp : contrast 1 PEC e u k by left.
have st : stronger 1 PEC PEC k by left.
have [pa pb] : (0 < ra')%Re /\ (0 < rb')%Re by lra.
have [t1 t2] := @C77_spheres c PEC PEC PEC PEC ra rb ra' rb' e u m k 1 conv hm ha hb ha' hb' hL hk hx ho gp gp gp gp st st hc.
have [z1 z2] : (0 <= \tr (U c0) <= \tr (U c1))%Re by have := t1 0%N; rewrite /mxpow /= !mulmx1.
have [o0 [o1 o2]] := ho.
have lA : ((lmin m - 1)%coq_nat < c_lmax c)%coq_nat by rewrite /lmin; lia.
have lB : ((lmin m - 1)%coq_nat < c_lssmax c)%coq_nat by rewrite /lmin; lia.
have big r : (r < r + 1)%Re by lra.
have [a1 _] := larger_pec (c_lmax c) (c_med c) e u hm k hk ra' (ra' + 1)%Re (lmin m - 1)%coq_nat pa (big _) lA.
have [b1 _] := larger_pec (c_lssmax c) (c_med c) e u hm k hk rb' (rb' + 1)%Re (lmin m - 1)%coq_nat pb (big _) lB.
have strict : (\tr (U c0) < \tr (U c1))%Re.
  apply: (@spheres_strict c PEC PEC PEC PEC ra rb ra' rb' e u m k 1 hm ha hb ha' hb' hL hk hx ho gp gp gp gp st st).
  - exact: a1.
  - by rewrite /mieB /= hx; exact: b1.
  - case: hlt => h; [left|right].
    + by have [_ h'] := larger_pec (c_lmax c) (c_med c) e u hm k hk ra ra' (lmin m - 1)%coq_nat ha h lA; exact: h'.
    + by have [_ h'] := larger_pec (c_lssmax c) (c_med c) e u hm k hk rb rb' (lmin m - 1)%coq_nat hb h lB; rewrite /mieB /= hx; exact: h'.
split; first by split.
move=> ht; have [v [v' [F [hF [h1 h2]]]]] := t2 ht; exists v, v', F; split; first exact: hF.
have aux (a b x y : R) : (a + (x - y) <= b -> b <= - y -> 0 <= y -> y < x -> a < b /\ b <= 0)%Re by lra.
exact: (aux _ _ _ _ h1 h2 z1 strict).
Qed.
Print Assumptions C77_perfect_reflectors.

(** ** Non-vacuity: gold and a perfect reflector in vacuum, against two larger perfect reflectors *)
Example C77_gold : exists L0, (0 < L0)%Re /\ forall L, (L0 <= L)%Re -> let c := at_distance gold_in_vacuum L in
  let c0 := with_spheres c (Solid (Lorentz e_Gold None) 1) (Solid PEC 2) in let c1 := with_spheres c (Solid PEC 3) (Solid PEC 4) in
  (\tr (trip exact_bessels c1 1 2) < 1)%Re /\ stronger 1 (Lorentz e_Gold None) (Lorentz e_Gold None) 2 /\
  exists v v' F, (forall fuel, (F <= fuel)%N -> rt_lndet exact_bessels trans_bessels c0 fuel 1e-10 1 [:: 2%Re] = Some (Val [:: Fin v]) /\
      rt_lndet exact_bessels trans_bessels c1 fuel 1e-10 1 [:: 2%Re] = Some (Val [:: Fin v'])) /\ (v' <= v)%Re /\ (v <= 0)%Re.
Proof.
have [p1 [p2 [p3 p4]]] : (0 < 1)%Re /\ (0 < 2)%Re /\ (0 < 3)%Re /\ (0 < 4)%Re by lra.
have [q1 q2] : (1 <= 3)%Re /\ (2 <= 4)%Re by lra.
have hc : (1e-10 < 1)%Re by lra.
have [g1 [g2 ho]] := C61_gold p2; have [_ [o1 o2]] := ho.
pose d := with_spheres gold_in_vacuum (Solid PEC 3) (Solid PEC 4).
have [[A eA] [B eB]] := @exact_val d PEC PEC 3%Re 4%Re 2%Re _ _ erefl erefl (contrast_solid g2) (contrast_solid g2) vacuum_has p3 p4 p2.
have [L0 h] := @C62_far exact_bessels d 1 2%Re _ _ A B 1%Re erefl eA eB vacuum_has p2 p1 o1 o2.
exists (Rmax 1 L0); have r1 := Rmax_l 1 L0; have r2 := Rmax_r 1 L0; split; first lra.
move=> L hL c c0 c1; have hL0 : (0 < L)%Re by lra.
have hLL : (L0 <= L)%Re by lra.
have [ht _] := h L hLL.
have tr1 : (\tr (trip exact_bessels c1 1 2) < 1)%Re by apply: Rle_lt_trans _ ht; exact: Rle_abs.
split=> //; split.
  case: g1 => [[_ //]|[e1 [u1 [h1 _]]]]; right; exists e1, u1, e1, u1; split=> //; split=> //; left; split=> //; split; exact: Rle_refl.
have st mm : stronger 1 PEC mm 2 by left.
have [tt rr] := @C77_spheres c (Lorentz e_Gold None) PEC PEC PEC 1%Re 2%Re 3%Re 4%Re _ _ 1%Z 2%Re 1 1e-10%Re vacuum_has p1 p2 q1 q2 hL0 p2 erefl ho g1 g2 g2 g2 (st _) (st _) hc.
have [v [v' [F [hF [b1 b2]]]]] := rr tr1; exists v, v', F; split=> //.
have := tt 0%N; rewrite /= !mulmx1 => -[z1 z2].
have aux (a b x y : R) : (a + (x - y) <= b -> b <= - y -> 0 <= y -> y <= x -> a <= b /\ b <= 0)%Re by lra.
exact: (aux _ _ _ _ b1 b2 z1 z2).
Qed.
