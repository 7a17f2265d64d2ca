(** * Property C98: stratified spheres *)
From Coq Require Import Reals.
From Coq Require Import List Lia Lra ZArith Sorted.
From mathcomp Require Import all_ssreflect ssralg ssrnum fingroup perm matrix mxalgebra poly mxpoly.
From Verif Require Import Base RStruct Mat_Model Mat_Spec Mat_Proofs Bessel_Model Bessel_Spec Scat_Model Scat_Spec Scat_Proofs Scat_Proofs4 Scat_Proofs7 Scat_Proofs9 Scat_Proofs10 Scat_Props Scat_Props2 Trans_Model Trans_Spec Trans_Proofs3
  Lin_Model Lin_Spec Bal_Proofs Lin_Proofs Trip_Proofs Lin_Proofs2 RT_Model RT_Spec RT_Spec2 RT_Proofs RT_Proofs2 RT_Proofs3 RT_Proofs4 RT_Proofs6 RT_Proofs7 RT_Proofs8 RT_Proofs9 RT_Proofs10
  RT_Props RT_Props2 RT_Props3 RT_Props5 Exp_Proofs2 Lap_Proofs2 Mono_Proofs Mono_Proofs2 Mono_Proofs3 RT_Props8 RT_Props9 Rad_Spec Rad_Proofs Rad_Proofs2 RT_Props10 Conv_Props2 Layer_Spec Layer_Proofs3 Layer_Proofs4.
Set Implicit Arguments.
Unset Strict Implicit.
Import GRing.Theory.
Local Open Scope ring_scope.
Delimit Scope R_scope with Re.

(** ** the coefficients *)
Theorem C98_coefficients : forall mat med e u k lmax s mats rs j, has med e u -> (0 < k)%Re -> stacked mat med mats rs -> (j < lmax)%coq_nat ->
  let T pick mats := entry pick (fun ks => flat (strat exact_bessels ks 0 (Z.of_nat lmax) mat mats rs)) j k in
  let P pick := entry pick (fun ks => mie exact_bessels ks 0 (Z.of_nat lmax) (List.last rs 0%Re) PEC med) j k in
  (exists c, strat exact_bessels [:: k] 0 (Z.of_nat lmax) mat mats rs = Ok (Val c)) /\
  ((s = 1%Re /\ List.Forall (fun i => weaker med (mat i) k) mats) \/ (s = (-1)%Re /\ List.Forall (fun i => weaker (mat i) med k) mats) ->
    (0 <= s * (-1) ^ (j + 1)%coq_nat * T TE mats)%Re /\ (0 <= - (s * (-1) ^ (j + 1)%coq_nat * T TM mats))%Re) /\
  (forall mats', stacked mat med mats' rs -> List.Forall2 (fun i i' => weaker (mat i) (mat i') k) mats mats' ->
    ((-1) ^ (j + 1)%coq_nat * T TE mats <= (-1) ^ (j + 1)%coq_nat * T TE mats')%Re /\ ((-1) ^ (j + 1)%coq_nat * T TM mats' <= (-1) ^ (j + 1)%coq_nat * T TM mats)%Re) /\
  ((-1) ^ (j + 1)%coq_nat * T TE mats <= (-1) ^ (j + 1)%coq_nat * P TE)%Re /\ ((-1) ^ (j + 1)%coq_nat * P TM <= (-1) ^ (j + 1)%coq_nat * T TM mats)%Re.
Proof.
move=> mat med e u k lmax s mats rs j hm hk hst hj T P.
have aux (a b x : R) : (0 <= a * (x - b) -> a * b <= a * x)%Re by lra.
split.
  have [m0 [m1 [ms [r0 [rs' [-> [-> [hl [h0 [hs [_ [hm' hc]]]]]]]]]]]] := hst.
  by have [c [core [hc' _]]] := strat_runs mat k hk lmax m0 m1 ms r0 rs' hl h0 hs hm' hc; exists c.
split; first by move=> h; exact (stacked_signed mat med k hk lmax s mats rs e u hm hst h j hj).
rewrite !pow_shift; split.
- move=> mats' hst' h; have [a b] := stacked_compare mat med k hk lmax mats mats' rs j hst hst' h hj.
  by split; [exact (aux _ _ _ a)|exact (aux _ _ _ b)].
- have [_ [a b]] := pec_bound mat med k hk lmax mats rs j e u hm hst hj.
  by split; [exact (aux _ _ _ a)|exact (aux _ _ _ b)].
Qed.
Print Assumptions C98_coefficients.

(** ** solid and stratified bodies in a configuration *)
Section Bodies.
Context (c : config) (e u : R -> R) (k : R) (hm : has (c_med c) e u) (hk : (0 < k)%Re).
Lemma body_sq s sp : body c s sp e u k -> s * s = 1.
Proof.
have h1 : (1 * 1)%Re = 1%Re by lra.
have h2 : (-1 * -1)%Re = 1%Re by lra.
by case: sp => [m r [_ h]|mats rs [_ [[-> _]|[-> _]]]]; first exact: contrast_sq h.
Qed.
Lemma body_A s : body c s (c_1 c) e u k -> signed s (c_lmax c) k (mieA exact_bessels c) /\ exists A, mieA exact_bessels c [:: k] = Val A.
Proof.
rewrite /mieA; case: (c_1 c) => [m r [hr h]|mats rs [hs h]].
- split; first exact: (ext_signed _ _ hr _ _ _ hm _ hk).
  have l1 n : (Z.of_nat 0 <= Z.of_nat n)%Z by lia.
  case: (contrast_solid h) => [->|[e3 [u3 h3]]].
  + by have [A [hA _]] := mie_pec_exact [:: k] 0 (Z.of_nat (c_lmax c)) (only k hk) (l1 _) r (c_med c) e u hr hm; exists A.
  + by have [A [hA _]] := mie_exact [:: k] 0 (Z.of_nat (c_lmax c)) (only k hk) (l1 _) r m (c_med c) e3 u3 e u hr h3 hm; exists A.
- split; first exact (stacked_signed (c_mat c) (c_med c) k hk (c_lmax c) s mats rs e u hm hs h).
  exact (stacked_val (c_mat c) (c_med c) k hk (c_lmax c) mats rs hs).
Qed.
Lemma body_B s : c_ext c = true -> body c s (c_2 c) e u k -> signed s (c_lssmax c) k (mieB exact_bessels c) /\ exists B, mieB exact_bessels c [:: k] = Val B.
Proof.
rewrite /mieB => ->; case: (c_2 c) => [m r [hr h]|mats rs [hs h]].
- split; first exact: (ext_signed _ _ hr _ _ _ hm _ hk).
  have l1 n : (Z.of_nat 0 <= Z.of_nat n)%Z by lia.
  case: (contrast_solid h) => [->|[e3 [u3 h3]]].
  + by have [A [hA _]] := mie_pec_exact [:: k] 0 (Z.of_nat (c_lssmax c)) (only k hk) (l1 _) r (c_med c) e u hr hm; exists A.
  + by have [A [hA _]] := mie_exact [:: k] 0 (Z.of_nat (c_lssmax c)) (only k hk) (l1 _) r m (c_med c) e3 u3 e u hr h3 hm; exists A.
- split; first exact (stacked_signed (c_mat c) (c_med c) k hk (c_lssmax c) s mats rs e u hm hs h).
  exact (stacked_val (c_mat c) (c_med c) k hk (c_lssmax c) mats rs hs).
Qed.
End Bodies.

Theorem C98_attraction : forall c e u m k s conv, c_ext c = true -> has (c_med c) e u -> (0 < c_L c)%Re -> (0 < k)%Re -> some_orders c m -> body c s (c_1 c) e u k -> body c s (c_2 c) e u k -> (conv < 1)%Re ->
  let U := trip exact_bessels c m k in
  (forall j, (0 <= \tr (mxpow U j.+1))%Re) /\
  ((\tr U < 1)%Re -> exists v N, (forall fuel, (N <= fuel)%N -> rt_lndet exact_bessels trans_bessels c fuel conv m [:: k] = Some (Val [:: Fin v])) /\ (ln (1 - \tr U) <= v <= - \tr U)%Re).
Proof.
move=> c e u m k s conv hx hm hL hk ho g1 g2 hc U.
have [s1 [A eA]] := body_A hm hk g1; have [s2 [B eB]] := body_B hm hk hx g2.
have [N hN] := lndet_total eA eB hm hL hk (proj1 (proj2 ho)) (proj2 (proj2 ho)) hc.
have [d1 d2] := solid_definite ho s1 s2; have ss := body_sq g1.
have sq : s_of m s * s_of m s = 1 by rewrite s_ofM.
have [h1 h2] := attract (@parity_rt exact_bessels c m k) sq sq d1 d2 sq.
split; first exact h1.
move=> /h2 [v [ev hv]]; exists v, N; split; last exact hv.
by move=> f hf; rewrite (hN f hf) /trip ev.
Qed.
Print Assumptions C98_attraction.
Theorem C98_repulsion : forall c e u m k s conv, c_ext c = true -> has (c_med c) e u -> (0 < c_L c)%Re -> (0 < k)%Re -> some_orders c m -> body c s (c_1 c) e u k -> body c (- s) (c_2 c) e u k -> (conv < 1)%Re ->
  let U := trip exact_bessels c m k in
  (forall j, (0 <= (-1) ^+ j.+1 * \tr (mxpow U j.+1))%Re) /\
  exists v N, (forall fuel, (N <= fuel)%N -> rt_lndet exact_bessels trans_bessels c fuel conv m [:: k] = Some (Val [:: Fin v])) /\ (0 <= ln (1 - \tr U) <= v)%Re.
Proof.
move=> c e u m k s conv hx hm hL hk ho g1 g2 hc U.
have [s1 [A eA]] := body_A hm hk g1; have [s2 [B eB]] := body_B hm hk hx g2.
have [N hN] := lndet_total eA eB hm hL hk (proj1 (proj2 ho)) (proj2 (proj2 ho)) hc.
have [d1 d2] := solid_definite ho s1 s2; have ss := body_sq g1.
have sq : s_of m s * s_of m s = 1 by rewrite s_ofM.
have sq' : s_of m (- s) * s_of m (- s) = 1 by rewrite s_ofM mulrNN.
have sq2 : s_of m s * s_of m (- s) = -1 by rewrite s_ofM mulrN ss.
have [h1 [_ [v [ev hv]]]] := repel (@parity_rt exact_bessels c m k) sq sq' d1 d2 sq2.
split; first exact h1.
exists v, N; split; last exact hv.
by move=> f hf; rewrite (hN f hf) /trip ev.
Qed.
Print Assumptions C98_repulsion.

(** ** two pairs of bodies at the same places *)
Section Pairs.
Context (c : config) (p q p' q' : sphere) (e u : R -> R) (m : Z) (k s : R).
Let c0 := with_spheres c p q.
Let c1 := with_spheres c p' q'.
Context (hx : c_ext c = true) (hm : has (c_med c) e u) (hL : (0 < c_L c)%Re) (hk : (0 < k)%Re) (ho : some_orders c m).
Context (g1 : body c s p e u k) (g2 : body c s q e u k) (g1' : body c s p' e u k) (g2' : body c s q' e u k) (o1 : outdone c s p p' k) (o2 : outdone c s q q' k).
Definition coefs_of (N : nat) (sp : sphere) (ks : list R) : out coefs :=
  match sp with Solid mm r => mie exact_bessels ks 0 (Z.of_nat N) r mm (c_med c) | Layered mats rs => flat (strat exact_bessels ks 0 (Z.of_nat N) (c_mat c) mats rs) end.
Lemma coefs_grow N sp sp' i : body c s sp e u k -> body c s sp' e u k -> outdone c s sp sp' k -> (i < N)%coq_nat ->
  (s * (-1) ^ (i + 1)%coq_nat * entry TE (coefs_of N sp) i k <= s * (-1) ^ (i + 1)%coq_nat * entry TE (coefs_of N sp') i k)%Re /\
  (- (s * (-1) ^ (i + 1)%coq_nat * entry TM (coefs_of N sp) i k) <= - (s * (-1) ^ (i + 1)%coq_nat * entry TM (coefs_of N sp') i k))%Re.
Proof.
have a1 (w a b : R) : (0 <= w * (a - b) -> 1 * w * b <= 1 * w * a)%Re by lra.
have a2 (w a b : R) : (0 <= w * (a - b) -> - (1 * w * a) <= - (1 * w * b))%Re by lra.
have a3 (w a b : R) : (0 <= w * (a - b) -> -1 * w * a <= -1 * w * b)%Re by lra.
have a4 (w a b : R) : (0 <= w * (a - b) -> - (-1 * w * b) <= - (-1 * w * a))%Re by lra.
case: sp => [m1 r1|m1 r1]; case: sp' => [m2 r2|m2 r2] b1 b2 h hi.
- have [hr st] := h; have [p1 k1] := b1; have [_ k2] := b2.
  exact: (grown N (c_med c) e u hm k hk s m1 m2 r1 r2 i k1 k2 st p1 hr hi).
- by case: h.
- have [es [em hr]] := h; have [hst _] := b1; rewrite em es.
  have [pl [x y]] := pec_bound (c_mat c) (c_med c) k hk N m1 r1 i e u hm hst hi.
  have gp : contrast 1 PEC e u k by left.
  have st : stronger 1 PEC PEC k by left.
  have [x' y'] := grown N (c_med c) e u hm k hk 1 PEC PEC (List.last r1 0%Re) r2 i gp gp st pl hr hi.
  rewrite -!(pow_shift i) in x y.
  split; [exact: Rle_trans (a1 _ _ _ x) x'|exact: Rle_trans (a2 _ _ _ y) y'].
- have [er hh] := h; have [s1 _] := b1; have [s2 _] := b2; rewrite er in s2 *.
  case: hh => [[-> f]|[-> f]].
  + have [x y] := stacked_compare (c_mat c) (c_med c) k hk N m1 m2 r1 i s1 s2 f hi; rewrite -!(pow_shift i) in x y.
    by split; [exact (a1 _ _ _ x)|exact (a2 _ _ _ y)].
  + have f' : List.Forall2 (fun i i' => weaker (c_mat c i) (c_mat c i') k) m2 m1.
      by elim: f => [|x y l l' hw _ IH]; constructor.
    have [x y] := stacked_compare (c_mat c) (c_med c) k hk N m2 m1 r1 i s2 s1 f' hi; rewrite -!(pow_shift i) in x y.
    by split; [exact (a3 _ _ _ x)|exact (a4 _ _ _ y)].
Qed.
Lemma coefs_A sp sp' : mieA exact_bessels (with_spheres c sp sp') = coefs_of (c_lmax c) sp.
Proof. by rewrite /mieA /coefs_of; case: sp. Qed.
Lemma coefs_B sp sp' : mieB exact_bessels (with_spheres c sp sp') = coefs_of (c_lssmax c) sp'.
Proof. by rewrite /mieB /coefs_of /= hx; case: sp'. Qed.
Lemma pairs_smaller : smaller (s_of m s) (s_of m s) (sgnZ m) (- sgnZ m) (n1 c m) (n2 c m) (rt_with exact_bessels c0 m k) (rt_with exact_bessels c1 m k).
Proof.
have [q0 [q1 q2]] := ho.
split.
- move=> i /ltP; rewrite /n1 /lmin => hi; have hi' : (Nat.add (lmin m - 1)%coq_nat i < c_lmax c)%coq_nat by rewrite /lmin; lia.
  have [a b] := coefs_grow g1 g1' o1 hi'; have [-> -> _ _] := blocks m k s c0 i; have [-> -> _ _] := blocks m k s c1 i.
  by rewrite !coefs_A; split; [exact: a|exact: b].
- move=> i /ltP; rewrite /n2 /lmin => hi; have hi' : (Nat.add (lmin m - 1)%coq_nat i < c_lssmax c)%coq_nat by rewrite /lmin; lia.
  have [a b] := coefs_grow g2 g2' o2 hi'; have [_ _ -> ->] := blocks m k s c0 i; have [_ _ -> ->] := blocks m k s c1 i.
  by rewrite !coefs_B; split; [exact: a|exact: b].
- by move=> i j _ _; split; apply: Rle_refl.
Qed.
Let U0 := trip exact_bessels c0 m k.
Let U1 := trip exact_bessels c1 m k.
Lemma pairs_gap : (forall j, (0 <= \tr (mxpow U0 j.+1) <= \tr (mxpow U1 j.+1))%Re) /\
  ((\tr U1 < 1)%Re -> [/\ (0 < \det (1%:M - U1))%Re, (0 < \det (1%:M - U0))%Re & (ln (\det (1%:M - U1)) + (\tr U1 - \tr U0) <= ln (\det (1%:M - U0)))%Re]).
Proof.
have [f1 _] := @body_A c0 e u k hm hk s g1; have [f2 _] := @body_B c0 e u k hm hk s hx g2.
have [f1' _] := @body_A c1 e u k hm hk s g1'; have [f2' _] := @body_B c1 e u k hm hk s hx g2'; have hs := body_sq g1.
have p0 := @spheres_positive e u m k s hk c0 hx hm hL ho f1 f2; have p1 := @spheres_positive e u m k s hk c1 hx hm hL ho f1' f2'.
exact: (compare_trips (leqnn _) (leqnn _) (@parity_rt exact_bessels c0 m k) (@parity_rt exact_bessels c1 m k) (s_sq m hs) (s_sq m hs) (s_sq m hs) (sg_sq m) (sg_sq' m) p0 p1 pairs_smaller).
Qed.
End Pairs.
Theorem C98_comparison : forall c p q p' q' e u m k s conv, c_ext c = true -> has (c_med c) e u -> (0 < c_L c)%Re -> (0 < k)%Re -> some_orders c m ->
  body c s p e u k -> body c s q e u k -> body c s p' e u k -> body c s q' e u k -> outdone c s p p' k -> outdone c s q q' k -> (conv < 1)%Re ->
  let c0 := with_spheres c p q in let c1 := with_spheres c p' q' in let U c := trip exact_bessels c m k in
  (forall j, (0 <= \tr (mxpow (U c0) j.+1) <= \tr (mxpow (U c1) j.+1))%Re) /\
  ((\tr (U c1) < 1)%Re -> exists v v' F, (forall fuel, (F <= fuel)%N -> rt_lndet exact_bessels trans_bessels c0 fuel conv m [:: k] = Some (Val [:: Fin v]) /\
      rt_lndet exact_bessels trans_bessels c1 fuel conv m [:: k] = Some (Val [:: Fin v'])) /\ (v' + (\tr (U c1) - \tr (U c0)) <= v <= - \tr (U c0))%Re).
Proof.
move=> c p q p' q' e u m k s conv hx hm hL hk ho g1 g2 g1' g2' o1 o2 hc c0 c1 U.
have [t1 t2] := pairs_gap hx hm hL hk ho g1 g2 g1' g2' o1 o2.
split; first exact: t1.
move=> ht; have [d d' hv] := t2 ht; have [_ [l1 l2]] := ho.
have [_ [A eA]] := @body_A c0 e u k hm hk s g1; have [_ [B eB]] := @body_B c0 e u k hm hk s hx g2.
have [_ [A' eA']] := @body_A c1 e u k hm hk s g1'; have [_ [B' eB']] := @body_B c1 e u k hm hk s hx g2'.
have [F hF] := @lndet_total exact_bessels c0 m k A B e u conv eA eB hm hL hk l1 l2 hc.
have [F' hF'] := @lndet_total exact_bessels c1 m k A' B' e u conv eA' eB' hm hL hk l1 l2 hc.
have run : forall fuel, (maxn F F' <= fuel)%N -> rt_lndet exact_bessels trans_bessels c0 fuel conv m [:: k] = Some (Val [:: Fin (ln (\det (1%:M - U c0)))]) /\
      rt_lndet exact_bessels trans_bessels c1 fuel conv m [:: k] = Some (Val [:: Fin (ln (\det (1%:M - U c1)))]).
  by move=> fuel; rewrite geq_max => /andP [f1 f2]; split; [rewrite (hF _ f1) (lnE d')|rewrite (hF' _ f2) (lnE d)].
exists (ln (\det (1%:M - U c0))), (ln (\det (1%:M - U c1))), (maxn F F'); split; first exact: run.
split; first exact: hv.
have [_ r2] := @C98_attraction c0 e u m k s conv hx hm hL hk ho g1 g2 hc.
have [_ tt] := t1 0%N; rewrite /mxpow /= !mulmx1 in tt.
have [w [F2 [hw [_ hw2]]]] := r2 (Rle_lt_trans _ _ _ tt ht).
have [ew _] := run (maxn (maxn F F') F2) (leq_maxl _ _); move: (hw (maxn (maxn F F') F2) (leq_maxr _ _)); rewrite ew => -[->]; exact: hw2.
Qed.
Print Assumptions C98_comparison.

(** ** far apart: no condition on the trace is needed *)
Lemma rim_pos c sp e u k s : has (c_med c) e u -> (0 < k)%Re -> body c s sp e u k -> (0 < rim sp)%Re.
Proof.
move=> hm hk; case: sp => [m r [h _]|mats rs [hs _]] //.
by have [h _] := pec_bound (c_mat c) (c_med c) k hk 1 mats rs 0 e u hm hs (le_n 1).
Qed.
Lemma outdone_rim c sp e u k : body c 1 sp e u k -> outdone c 1 sp (Solid PEC (rim sp)) k.
Proof. by case: sp => [m r [h _]|mats rs _]; split; [exact: Rle_refl|left| |split; [|exact: Rle_refl]]. Qed.
Theorem C98_far : forall c p q e u m k conv, c_ext c = true -> has (c_med c) e u -> (5 * (rim p + rim q) <= c_L c)%Re -> (forall k, (0 < k)%Re -> u k = 1%Re) -> (0 < k)%Re -> some_orders c m ->
  body c 1 p e u k -> body c 1 q e u k -> (conv < 1)%Re ->
  let b := (1 / 2 * (1 / 81) ^ (lmin m - 1) * exp (- (k * c_L c * sqrt (e k) / 70)))%Re in let c0 := with_spheres c p q in let U := trip exact_bessels c0 m k in
  (0 <= \tr U <= b)%Re /\ exists v F, (forall fuel, (F <= fuel)%N -> rt_lndet exact_bessels trans_bessels c0 fuel conv m [:: k] = Some (Val [:: Fin v])) /\ (- (2 * b) <= v <= - \tr U)%Re.
Proof.
move=> c p q e u m k conv hx hm hL5 hu hk ho g1 g2 hc b c0 U.
have ra := rim_pos hm hk g1; have rb := rim_pos hm hk g2.
have hL : (0 < c_L c)%Re by lra.
have con k' : (0 < k')%Re -> contrast 1 PEC e u k' /\ contrast 1 PEC e u k' by move=> _; split; left.
pose c1 := with_spheres c (Solid PEC (rim p)) (Solid PEC (rim q)).
have [[t0 t1] [w [F2 [hw [w1 w2]]]]] := @C81_round_trips c1 PEC PEC (rim p) (rim q) e u 1 m k conv erefl erefl hx hm ra rb hL5 hu con ho hk hc.
have b1 : body c 1 (Solid PEC (rim p)) e u k by split=> //; left.
have b2 : body c 1 (Solid PEC (rim q)) e u k by split=> //; left.
have [s1 s2] := @C98_comparison c p q _ _ e u m k 1 conv hx hm hL hk ho g1 g2 b1 b2 (outdone_rim g1) (outdone_rim g2) hc.
have := s1 0%N; rewrite /mxpow /= !mulmx1 => -[z1 z2].
have bl : (b < 1)%Re.
  have e1 : (0 < (1 / 81) ^ (lmin m - 1) <= 1)%Re.
    split; first by apply: pow_lt; lra.
    have h : ((1 / 81) ^ (lmin m - 1) <= 1 ^ (lmin m - 1))%Re by apply: pow_incr; lra.
    by rewrite pow1 in h.
  have e2 : (0 < exp (- (k * c_L c * sqrt (e k) / 70)) <= 1)%Re.
    split; first exact: exp_pos.
    rewrite -exp_0; case: (Rle_lt_or_eq_dec 0 (k * c_L c * sqrt (e k) / 70)) => [|h|<-].
    - apply: Rmult_le_pos; last lra.
      apply: Rmult_le_pos; last exact: sqrt_pos.
      by apply: Rmult_le_pos; lra.
    - by left; apply: exp_increasing; lra.
    - by rewrite Ropp_0; right.
  have e3 : ((1 / 81) ^ (lmin m - 1) * exp (- (k * c_L c * sqrt (e k) / 70)) <= 1 * 1)%Re by apply: Rmult_le_compat; lra.
  by rewrite /b Rmult_assoc; lra.
have [v [v' [F [hF [v1 v2]]]]] := s2 (Rle_lt_trans _ _ _ t1 bl).
split; first by split=> //; exact: Rle_trans t1.
exists v, F; split; first by move=> f hf; exact (proj1 (hF f hf)).
have [_ ew] := hF (maxn F F2) (leq_maxl _ _); move: (hw (maxn F F2) (leq_maxr _ _)); rewrite ew => -[ev].
rewrite ev in v1.
have aux (x y z a b' : R) : (x + (y - z) <= a -> - (2 * b') <= x -> z <= y -> - (2 * b') <= a)%Re by lra.
by split; [exact (aux _ _ _ _ _ v1 w1 z2)|].
Qed.
Print Assumptions C98_far.

(** ** a stratified wall around the inner sphere is given the coefficients of a sphere seen from outside *)
Theorem C98_enclosing_wall_refuted : forall c e u k m0 m1, c_ext c = false -> has (c_med c) e u -> (0 < k)%Re -> c_mat c m0 = PEC -> c_mat c m1 = c_med c -> (0 < c_lssmax c)%coq_nat ->
  let wall r := with_spheres c (c_1 c) (Layered [:: m0; m1] [:: r]) in let cavity r := with_spheres c (c_1 c) (Solid PEC r) in
  (forall r, (0 < r)%Re -> pec_int_TE 1 (refr e u k) k r (entry TE (mieB exact_bessels (cavity r)) 0 k)) /\
  (forall r, (0 < r)%Re -> pec_ext_TE 1 (refr e u k) k r (entry TE (mieB exact_bessels (wall r)) 0 k)) /\
  ~ (forall r, (0 < r)%Re -> pec_int_TE 1 (refr e u k) k r (entry TE (mieB exact_bessels (wall r)) 0 k)).
Proof.
move=> c e u k m0 m1 hx hm hk e0 e1 hl wall cavity.
have wE r : mieB exact_bessels (wall r) = (fun ks => mie exact_bessels ks 0 (Z.of_nat (c_lssmax c)) r PEC (c_med c)).
  by rewrite /mieB /wall /= /strat /Misc_Model.mie_strat /= e0 e1 andbF.
have l1 : (Z.of_nat 0 <= Z.of_nat (c_lssmax c))%Z by lia.
have l2 : (0 < Z.to_nat (Z.of_nat (c_lssmax c) - Z.of_nat 0))%coq_nat by lia.
have q1 : (0 < List.length [:: k])%coq_nat by exact: le_n.
have E r : (0 < r)%Re -> pec_ext_TE 1 (refr e u k) k r (entry TE (mieB exact_bessels (wall r)) 0 k).
  move=> hr; rewrite wE /entry; have [[A [-> hA]] _] := C40_perfect_conductor [:: k] 0 (Z.of_nat (c_lssmax c)) r (c_med c) e u (only k hk) l1 hr hm.
  by apply (proj2 (proj1 (hA 0%N 0%N _ l2 q1))).
split.
  move=> r hr; rewrite /mieB /cavity /= hx /entry; have [_ [A [-> hA]]] := C40_perfect_conductor [:: k] 0 (Z.of_nat (c_lssmax c)) r (c_med c) e u (only k hk) l1 hr hm.
  by apply (proj2 (proj1 (hA 0%N 0%N _ l2 q1))).
split=> // I.
have sq r : (0 < r)%Re -> let a := entry TE (mieB exact_bessels (wall r)) 0 k in (a * a = 1)%Re.
  move=> hr a; have h1 : pec_ext_TE 1 (refr e u k) k r a := E r hr; have h2 : pec_int_TE 1 (refr e u k) k r a := I r hr.
  have [_ [hp _]] := hm; have [pe pu] := hp k hk.
  have px : (0 < refr e u k * k * r)%Re by apply: Rmult_lt_0_compat => //; apply: Rmult_lt_0_compat => //; exact: refr_pos.
  have pi := Bessel_Proofs2.sph_i_pos 1 _ px; move: h1 h2; rewrite /pec_ext_TE /pec_int_TE.
  move: (sph_i _ _) (sph_h _ _) pi => x y hx0 h1 h2.
  apply: (Rmult_eq_reg_r x); last lra.
  have h3 : (y = - (a * x))%Re by lra.
  by rewrite h3 in h1; lra.
have r1 : (0 < 1)%Re by lra.
have r2 : (0 < 2)%Re by lra.
have r12 : (1 < 2)%Re by lra.
have [g1 g2] := larger_pec (c_lssmax c) (c_med c) e u hm k hk 1%Re 2%Re 0 r1 r12 hl.
have s1 := sq 1%Re r1; have s2 := sq 2%Re r2; rewrite !wE in s1 s2; rewrite /sized in g1 g2.
move: (entry TE _ 0 k) (entry TE (fun ks => mie exact_bessels ks 0 _ 2%Re _ _) 0 k) g1 g2 s1 s2 => a b; rewrite (_ : ((-1) ^ (0 + 1)%coq_nat)%Re = (-1)%Re); last by rewrite /=; lra.
nra.
Qed.
Print Assumptions C98_enclosing_wall_refuted.

(** ** Non-vacuity: a perfect reflector coated with gold, and a hollow gold sphere, in vacuum *)
Definition some_mats (i : nat) : material := match i with 0 => PEC | 1 => Lorentz e_Gold None | _ => Lorentz [::] None end%N.
Definition coated_pec : sphere := Layered [:: 0; 1; 2]%N [:: 1; 2]%Re.
Definition hollow_gold : sphere := Layered [:: 2; 1; 2]%N [:: 1; 2]%Re.
Definition shells : config := {| c_1 := coated_pec; c_2 := hollow_gold; c_med := Lorentz [::] None; c_L := 20; c_lmax := 3; c_lssmax := 4; c_ext := true; c_mat := some_mats |}.
Lemma sorted12 : Sorted Rle [:: 1; 2]%Re.
Proof. by constructor; [constructor; constructor|constructor; lra]. Qed.
Lemma gold_weaker k : (0 < k)%Re -> weaker (Lorentz [::] None) (Lorentz e_Gold None) k.
Proof.
move=> hk; have [_ [h1 _]] := gold_drude; right; exists (eps_spec [::]), (mu_val None), (eps_spec e_Gold), (mu_val None).
split; first exact vacuum_has; split; first exact gold_has; split; last by right.
by have := Mat_Proofs.eps_ge_1 _ _ h1 hk; rewrite /eps_spec /=; lra.
Qed.
Lemma vacuum_weaker k : weaker (Lorentz [::] None) (Lorentz [::] None) k.
Proof. by right; exists (eps_spec [::]), (mu_val None), (eps_spec [::]), (mu_val None); do 2 (split; first exact vacuum_has); split; right. Qed.
Lemma stacked_ex m0 : m0 = 0%N \/ m0 = 2%N -> stacked some_mats (Lorentz [::] None) [:: m0; 1; 2]%N [:: 1; 2]%Re.
Proof.
move=> h; exists m0, 1%N, [:: 2]%N, 1%Re, [:: 2]%Re; do 3 (split; first reflexivity); split; first lra; split; first exact sorted12.
split; first reflexivity; split.
  move=> m [<-|[<-|[]]]; first by exists (eps_spec e_Gold), (mu_val None); exact gold_has.
  by exists (eps_spec [::]), (mu_val None); exact vacuum_has.
case: h => ->; [right; split=> //; right; exists 2%Re, [::]; split=> //; lra|left; exists (eps_spec [::]), (mu_val None); exact vacuum_has].
Qed.
Example C98_example k : (0 < k)%Re -> body shells 1 coated_pec (eps_spec [::]) (mu_val None) k /\ body shells 1 hollow_gold (eps_spec [::]) (mu_val None) k /\
  outdone shells 1 hollow_gold coated_pec k /\ some_orders shells 1 /\ (5 * (rim coated_pec + rim hollow_gold) <= c_L shells)%Re.
Proof.
move=> hk; have g := gold_weaker hk; have v := vacuum_weaker k; have p : weaker (Lorentz [::] None) PEC k by left.
split; first by split; [apply: stacked_ex; left|left; split=> //; constructor=> //; constructor=> //; constructor].
split; first by split; [apply: stacked_ex; right|left; split=> //; constructor=> //; constructor=> //; constructor].
split.
  split=> //; left; split=> //; constructor; first exact p.
  constructor; first by right; exists (eps_spec e_Gold), (mu_val None), (eps_spec e_Gold), (mu_val None); do 2 (split; first exact gold_has); split; right.
  by constructor.
by split; [rewrite /some_orders /=; lia|rewrite /=; lra].
Qed.
(** and the result for this pair, for every frequency *)
Example C98_shells k : (0 < k)%Re -> exists v F, (forall fuel, (F <= fuel)%N -> rt_lndet exact_bessels trans_bessels shells fuel (1 / 2)%Re 1 [:: k] = Some (Val [:: Fin v])) /\ (-1 <= v <= 0)%Re.
Proof.
move=> hk; have [h1 [h2 [_ [h4 h5]]]] := C98_example hk.
have u1 k' : (0 < k')%Re -> mu_val None k' = 1%Re by [].
have c1 : (1 / 2 < 1)%Re by lra.
have [[t0 t1] [v [F [hF [v1 v2]]]]] := @C98_far shells coated_pec hollow_gold (eps_spec [::]) (mu_val None) 1 k (1 / 2)%Re erefl vacuum_has h5 u1 hk h4 h1 h2 c1.
exists v, F; split; first exact hF.
have ee : (exp (- (k * c_L shells * sqrt (eps_spec [::] k) / 70)) <= 1)%Re.
  rewrite -exp_0; have hp : (0 <= k * c_L shells * sqrt (eps_spec [::] k) / 70)%Re.
    apply: Rmult_le_pos; last lra.
    by apply: Rmult_le_pos; [rewrite /=; lra|exact: sqrt_pos].
  by case: hp => [h|<-]; [left; apply: exp_increasing; lra|rewrite Ropp_0; right].
have l0 : ((1 / 81) ^ (lmin 1 - 1))%Re = 1%Re by [].
rewrite l0 in v1 t1; have aux (b x y w : R) : (b <= 1 -> - (2 * (1 / 2 * 1 * b)) <= x -> x <= - y -> 0 <= y -> -1 <= x <= 0)%Re by lra.
exact (aux _ _ _ v ee v1 v2 t0).
Qed.
