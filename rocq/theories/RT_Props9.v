(** * Property C76: truncation. Coefficients do not depend on the largest orders; larger orders strengthen the attraction *)
From Coq Require Import Reals.
From Coq Require Import List Lia Lra ZArith.
From mathcomp Require Import all_ssreflect ssralg ssrnum fingroup perm matrix mxalgebra poly mxpoly.
From Verif Require Import Base RStruct Mat_Model Mat_Spec Mat_Proofs Bessel_Model Scat_Model Scat_Spec Scat_Proofs Scat_Proofs4 Scat_Proofs7 Scat_Proofs9 Scat_Proofs10 Scat_Props2 Trans_Model Trans_Spec Trans_Proofs3
  Lin_Model Lin_Spec Bal_Proofs Lin_Proofs Trip_Proofs Lin_Proofs2 RT_Model RT_Spec RT_Spec2 RT_Proofs RT_Proofs2 RT_Proofs3 RT_Proofs4 RT_Proofs6 RT_Proofs7 RT_Proofs8 RT_Proofs9 RT_Proofs10
  RT_Props RT_Props2 RT_Props3 RT_Props5 Exp_Proofs2 Lap_Proofs2 Mono_Proofs Mono_Proofs2 Mono_Proofs3 RT_Props8 Cut_Proofs.
Set Implicit Arguments.
Unset Strict Implicit.
Import GRing.Theory.
Local Open Scope ring_scope.
Delimit Scope R_scope with Re.

(** ** the coefficients of an order do not depend on the largest order requested *)
Theorem C76_mie : forall (ks : list R) n n' r m1 m2, (forall k, In k ks -> (0 < k)%Re) -> ks <> nil -> (0 < r)%Re -> (n <= n')%coq_nat ->
  (forall e u, solid_ok m1 -> has m2 e u -> exists A A', [/\ mie mie_bessels ks 0 (Z.of_nat n) r m1 m2 = Val A, mie mie_bessels ks 0 (Z.of_nat n') r m1 m2 = Val A' &
    forall j q, (j < n)%coq_nat -> (q < List.length ks)%coq_nat -> te_at A j q = te_at A' j q /\ tm_at A j q = tm_at A' j q /\ scale_at A j q = scale_at A' j q]) /\
  (forall e u, has m1 e u -> solid_ok m2 -> exists A A', [/\ mie_internal mie_bessels ks 0 (Z.of_nat n) r m1 m2 = Val A, mie_internal mie_bessels ks 0 (Z.of_nat n') r m1 m2 = Val A' &
    forall j q, (j < n)%coq_nat -> (q < List.length ks)%coq_nat -> te_at A j q = te_at A' j q /\ tm_at A j q = tm_at A' j q /\ scale_at A j q = scale_at A' j q]).
Proof.
move=> ks n n' r m1 m2 hks hne hr hn; split=> e u h1 h2.
- by have [A [A' [EA [EA' hA]]]] := mie_cut mie_bessels ks n n' r code_nested hks hne hr hn m1 m2 e u h1 h2; exists A, A'.
- by have [A [A' [EA [EA' hA]]]] := mie_int_cut mie_bessels ks n n' r code_nested hks hne hr hn m1 m2 e u h2 h1; exists A, A'.
Qed.
Print Assumptions C76_mie.
Theorem C76_translation : forall lmax lssmax lmax' lssmax' m med L ext l1 l2 k e u, has med e u -> (0 < k)%Re -> (0 < L)%Re ->
  (l1 <= lmax)%coq_nat -> (l2 <= lssmax)%coq_nat -> (lmax <= lmax')%coq_nat -> (lssmax <= lssmax')%coq_nat ->
  forall pick, In pick [:: v_EEab; v_EEba; v_EMab; v_EMba] ->
  coefficient pick trans_bessels lmax lssmax m med L ext l1 l2 k = coefficient pick trans_bessels lmax' lssmax' m med L ext l1 l2 k.
Proof. exact: trans_cut. Qed.
Print Assumptions C76_translation.

Section Cut.
Context (mieb : list R -> nat -> Z -> res (list (list R) * list (list R))) (hb : nested mieb) (c : config) (m1 m2 : material) (ra rb : R) (e u : R -> R) (m : Z) (k s : R).
Context (h1 : c_1 c = Solid m1 ra) (h2 : c_2 c = Solid m2 rb) (s1 : solid_ok m1) (s2 : solid_ok m2) (hm : has (c_med c) e u) (ha : (0 < ra)%Re) (hrb : (0 < rb)%Re) (hL : (0 < c_L c)%Re) (hk : (0 < k)%Re).
Context (hx : c_ext c = true) (hs : s * s = 1) (N N' M M' : nat) (hN : (N <= N')%coq_nat) (hM : (M <= M')%coq_nat).
Let c0 := truncated c N M.
Let c1 := truncated c N' M'.
Context (ho : some_orders c0 m).
Context (g1 : signed s N' k (mieA mieb c1)) (g2 : signed s M' k (mieB mieb c1)).
Lemma cut_orders : some_orders c1 m.
Proof. by move: ho; rewrite /some_orders /c0 /c1 /truncated /=; lia. Qed.
Lemma cut_signed : signed s N k (mieA mieb c0) /\ signed s M k (mieB mieb c0).
Proof.
split=> j hj.
- have [-> ->] := entry_cut_A mieb hb c m1 ra e u h1 s1 hm ha k hk N N' M M' hN hM j hj; apply: g1; lia.
- have [-> ->] := entry_cut_B mieb hb c m2 rb e u h2 s2 hm hrb k hk N N' M M' hN hM j hj; apply: g2; lia.
Qed.
Lemma same_distance (d : config) : at_distance d (c_L d) = d.
Proof. by case: d. Qed.
Lemma cut_positive (d : config) : c_ext d = true -> has (c_med d) e u -> (0 < c_L d)%Re -> some_orders d m -> signed s (c_lmax d) k (mieA mieb d) -> signed s (c_lssmax d) k (mieB mieb d) ->
  positive (s_of m s) (s_of m s) (sgnZ m) (- sgnZ m) (n1 d m) (n2 d m) (rt_with mieb d m k).
Proof. by move=> dx dm dL dp f1 f2; have := @rt_positive mieb d m k e u s dx dm hk dp f1 f2 (c_L d) dL; rewrite same_distance. Qed.
Lemma cut_sizes : (n1 c0 m <= n1 c1 m)%N /\ (n2 c0 m <= n2 c1 m)%N.
Proof. by rewrite /n1 /n2 /c0 /c1 /truncated /=; split; apply/leP; lia. Qed.
Lemma cut_smaller : smaller (s_of m s) (s_of m s) (sgnZ m) (- sgnZ m) (n1 c0 m) (n2 c0 m) (rt_with mieb c0 m k) (rt_with mieb c1 m k).
Proof.
have [/ltP p1 /ltP p2] := orders_pos ho.
have cut := rt_cut mieb hb c m1 m2 ra rb e u h1 h2 s1 s2 hm ha hrb hL k hk N N' M M' hN hM m.
split.
- move=> i /ltP hi; have := cut i 0%N hi p2; cbv zeta; move=> [e1 [e2 _]].
  by rewrite /pE /pM; split; right; [rewrite e1|rewrite e2].
- move=> i /ltP hi; have := cut 0%N i p1 hi; cbv zeta; move=> [_ [_ [e1 [e2 _]]]].
  by rewrite /pE /pM; split; right; [rewrite e1|rewrite e2].
- move=> i j /ltP hi /ltP hj; have := cut i j hi hj; cbv zeta; move=> [_ [_ [_ [_ [e1 [_ [e2 _]]]]]]].
  by rewrite /vv; split; right; [rewrite e1|rewrite e2].
Qed.
Let U0 := trip mieb c0 m k.
Let U1 := trip mieb c1 m k.
Lemma cut_gap : (forall j, (0 <= \tr (mxpow U0 j.+1) <= \tr (mxpow U1 j.+1))%Re) /\
  ((\tr U1 < 1)%Re -> [/\ (0 < \det (1%:M - U1))%Re, (0 < \det (1%:M - U0))%Re & (ln (\det (1%:M - U1)) + (\tr U1 - \tr U0) <= ln (\det (1%:M - U0)))%Re]).
Proof.
have [f1 f2] := cut_signed; have [z1 z2] := cut_sizes.
have p0 := @cut_positive c0 hx hm hL ho f1 f2; have p1 := @cut_positive c1 hx hm hL cut_orders g1 g2.
exact: (compare_trips z1 z2 (@parity_rt mieb c0 m k) (@parity_rt mieb c1 m k) (s_sq m hs) (s_sq m hs) (s_sq m hs) (sg_sq m) (sg_sq' m) p0 p1 cut_smaller).
Qed.
Lemma cut_strict : (N < N')%coq_nat \/ (M < M')%coq_nat -> (forall j, (j < N')%coq_nat -> (0 < s * (-1) ^ (j + 1)%coq_nat * entry TE (mieA mieb c1) j k)%Re) ->
  (forall j, (j < M')%coq_nat -> (0 < s * (-1) ^ (j + 1)%coq_nat * entry TE (mieB mieb c1) j k)%Re) -> (\tr U0 < \tr U1)%Re.
Proof.
move=> hlt t1 t2; have [f1 f2] := cut_signed; have [z1 z2] := cut_sizes.
have p0 := @cut_positive c0 hx hm hL ho f1 f2; have p1 := @cut_positive c1 hx hm hL cut_orders g1 g2.
have [q1 q2] := orders_pos cut_orders; have [o0 [o1 o2]] := ho; rewrite /c0 /truncated /= in o1 o2.
pose w e i s1 := (sqrt (pE (s_of m s) (aTE e) (a2 e) i) * vv (sgnZ m) (V0 e) (V4 e) i s1 * sqrt (pE (s_of m s) (bTE e) (b2 e) s1))%Re.
have lm : (1 <= lmin m)%coq_nat by rewrite /lmin; lia.
have g (j i : nat) (t : R) : (j + 1)%coq_nat = (lmin m + i)%coq_nat -> (0 < s * (-1) ^ (j + 1)%coq_nat * t)%Re -> (0 < sqrt (s_of m s * (-1) ^+ i * (t * exp 0)%Re)%R)%Re.
  move=> -> ht; apply: sqrt_lt_R0; rewrite exp_0 Rmult_1_r /s_of -(mulrA s) -exprD.
  by move: ht; rewrite RpowE plusE => ht; exact: ht.
have wpos i j : (i < n1 c1 m)%N -> (j < n2 c1 m)%N -> (0 < w (rt_with mieb c1 m k) i j)%Re.
  move=> /ltP hi /ltP hj; have := @trans_falls mieb c1 m k e u hx hm hk o0 i j hi hj; rewrite /= => -[P [Q [[fp _] [_ E]]]].
  have [E1 _] := E (c_L c1) hL; have F1 : vv (sgnZ m) (V0 (rt_with mieb c1 m k)) (V4 (rt_with mieb c1 m k)) i j = P (k * c_L c1 * sqrt (e k))%Re by exact: E1.
  have xp : (0 < k * c_L c1 * sqrt (e k))%Re.
    have [_ [hp _]] := hm; have [hp' _] := hp k hk; apply: Rmult_lt_0_compat; last exact: sqrt_lt_R0.
    exact: Rmult_lt_0_compat.
  rewrite /w F1; move: hi hj; rewrite /n1 /n2 /c1 /truncated /= => hi hj.
  apply: Rmult_lt_0_compat; first apply: Rmult_lt_0_compat.
  - by apply: (g ((lmin m - 1)%coq_nat + i)%coq_nat); [lia|apply: t1; lia].
  - exact: fp.
  - by apply: (g ((lmin m - 1)%coq_nat + j)%coq_nat); [lia|apply: t2; lia].
have step i j : (i < n1 c1 m)%N -> (j < n2 c1 m)%N -> (n1 c0 m <= i)%N \/ (n2 c0 m <= j)%N -> (\tr U0 < \tr U1)%Re.
  move=> hi hj out; apply: (compare_strict z1 z2 (@parity_rt mieb c0 m k) (@parity_rt mieb c1 m k) (s_sq m hs) (s_sq m hs) (s_sq m hs) (sg_sq m) (sg_sq' m) p0 p1 cut_smaller hi hj).
  have -> : forall f, pad (n1 c0 m) (n2 c0 m) f i j = 0 by move=> f; rewrite /pad; case: out => out; rewrite [in X in if X then _ else _]/= !(ltnNge _ (n1 c0 m)) !(ltnNge _ (n2 c0 m)) out ?andbF.
  exact: wpos.
case: hlt => h.
- apply: (step (n1 c0 m) 0%N) => //; last by left.
  by rewrite /n1 /c0 /c1 /truncated /= /lmin; apply/ltP; lia.
- apply: (step 0%N (n2 c0 m)) => //; last by right.
  by rewrite /n2 /c0 /c1 /truncated /= /lmin; apply/ltP; lia.
Qed.
End Cut.

(** ** what rt_lndet returns for the two truncations *)
Lemma cut_run mieb c m k e u conv (A B A' B' : coefs) N M N' M' : mieA mieb (truncated c N M) [:: k] = Val A -> mieB mieb (truncated c N M) [:: k] = Val B ->
  mieA mieb (truncated c N' M') [:: k] = Val A' -> mieB mieb (truncated c N' M') [:: k] = Val B' -> has (c_med c) e u -> (0 < k)%Re -> (0 < c_L c)%Re ->
  some_orders (truncated c N M) m -> some_orders (truncated c N' M') m -> (conv < 1)%Re ->
  let U N M := trip mieb (truncated c N M) m k in (0 < \det (1%:M - U N M))%Re -> (0 < \det (1%:M - U N' M'))%Re ->
  exists F, forall fuel, (F <= fuel)%N -> rt_lndet mieb trans_bessels (truncated c N M) fuel conv m [:: k] = Some (Val [:: Fin (ln (\det (1%:M - U N M)))]) /\
    rt_lndet mieb trans_bessels (truncated c N' M') fuel conv m [:: k] = Some (Val [:: Fin (ln (\det (1%:M - U N' M')))]).
Proof.
move=> eA eB eA' eB' hm hk hL [_ [o1 o2]] [_ [o1' o2']] hc U d d'.
have [F hF] := @lndet_total mieb (truncated c N M) m k A B e u conv eA eB hm hL hk o1 o2 hc.
have [F' hF'] := @lndet_total mieb (truncated c N' M') m k A' B' e u conv eA' eB' hm hL hk o1' o2' hc.
exists (maxn F F') => fuel; rewrite geq_max => /andP [f1 f2]; split.
- by rewrite (hF _ f1) (lnE d).
- by rewrite (hF' _ f2) (lnE d').
Qed.

(** ** two solid spheres on the same side of the medium, exact radial functions: larger orders strengthen the attraction *)
Theorem C76_truncation : forall c m1 m2 ra rb e u m k s conv N M N' M', c_1 c = Solid m1 ra -> c_2 c = Solid m2 rb -> c_ext c = true -> has (c_med c) e u -> (0 < ra)%Re -> (0 < rb)%Re -> (0 < c_L c)%Re -> (0 < k)%Re ->
  contrast s m1 e u k -> contrast s m2 e u k -> (conv < 1)%Re -> (N <= N')%coq_nat -> (M <= M')%coq_nat -> some_orders (truncated c N M) m -> let U N M := trip exact_bessels (truncated c N M) m k in
  (forall j, (0 <= \tr (mxpow (U N M) j.+1) <= \tr (mxpow (U N' M') j.+1))%Re) /\
  ((\tr (U N' M') < 1)%Re -> exists v v' F, (forall fuel, (F <= fuel)%N -> rt_lndet exact_bessels trans_bessels (truncated c N M) fuel conv m [:: k] = Some (Val [:: Fin v]) /\
      rt_lndet exact_bessels trans_bessels (truncated c N' M') fuel conv m [:: k] = Some (Val [:: Fin v'])) /\ (v' + (\tr (U N' M') - \tr (U N M)) <= v <= - \tr (U N M))%Re).
Proof.
move=> c m1 m2 ra rb e u m k s conv N M N' M' e1 e2 hx hm ha hb hL hk g1 g2 hc hN hM ho U.
have so1 := contrast_solid g1; have so2 := contrast_solid g2.
have [[A eA] [B eB]] := @exact_val (truncated c N M) m1 m2 ra rb k e u e1 e2 so1 so2 hm ha hb hk.
have [[A' eA'] [B' eB']] := @exact_val (truncated c N' M') m1 m2 ra rb k e u e1 e2 so1 so2 hm ha hb hk.
have s1 : signed s N' k (mieA exact_bessels (truncated c N' M')) by rewrite /mieA [c_1 _]/= e1; apply: (ext_signed _ _ ha _ _ _ hm _ hk).
have s2 : signed s M' k (mieB exact_bessels (truncated c N' M')) by rewrite /mieB [c_2 _]/= e2 [c_ext _]/= hx; apply: (ext_signed _ _ hb _ _ _ hm _ hk).
have [t1 t2] := cut_gap exact_nested e1 e2 so1 so2 hm ha hb hL hk hx (contrast_sq g1) hN hM ho s1 s2.
split; first exact: t1.
move=> ht; have [d d' hv] := t2 ht; have [F hF] := cut_run eA eB eA' eB' hm hk hL ho (cut_orders hN hM ho) hc d' d.
exists (ln (\det (1%:M - U N M))), (ln (\det (1%:M - U N' M'))), F; split; first exact: hF.
split; first exact: hv.
have [_ r2] := @C61_attraction (truncated c N M) m1 m2 ra rb e u m k s conv e1 e2 hm ha hb hL hk ho g1 g2 hc.
have [_ tt] := t1 0%N; rewrite /mxpow /= !mulmx1 in tt.
have [w [F2 [hw [_ hw2]]]] := r2 (Rle_lt_trans _ _ _ tt ht).
have [ew _] := hF (maxn F F2) (leq_maxl _ _); move: (hw (maxn F F2) (leq_maxr _ _)); rewrite ew => -[->]; exact: hw2.
Qed.
Print Assumptions C76_truncation.

(** ** two perfect reflectors, the radial functions of the code: strictly stronger *)
Lemma signs_pos N k F : signs N k F -> forall j, (j < N)%coq_nat -> (0 < 1 * (-1) ^ (j + 1)%coq_nat * entry TE F j k)%Re.
Proof. by move=> h j hj; have [p [p' [hp [_ [-> _]]]]] := h j hj; rewrite Rmult_1_l -Rmult_assoc m1_sq Rmult_1_l. Qed.
Lemma pec_trace_pos c ra rb e u m k : c_1 c = Solid PEC ra -> c_2 c = Solid PEC rb -> c_ext c = true -> has (c_med c) e u -> (0 < ra)%Re -> (0 < rb)%Re -> (0 < c_L c)%Re -> (0 < k)%Re -> some_orders c m ->
  (0 < \tr (trip mie_bessels c m k))%Re.
Proof.
move=> e1 e2 hx hm ha hb hL hk ho; have c01 : (0 < 1)%Re /\ (0 < c_L c / 2)%Re /\ (c_L c / 2 < c_L c)%Re by lra.
have [c1 [c2 c3]] := c01; have h0 : (0 < 1)%Re by lra.
have [_ [[h _] _]] := @C75_perfect_reflectors c ra rb e u m k 0%Re (c_L c / 2)%Re (c_L c) e1 e2 hx hm ha hb hk ho h0 c2 c3.
by rewrite same_distance in h.
Qed.
Theorem C76_perfect_reflectors : forall c ra rb e u m k conv N M N' M', c_1 c = Solid PEC ra -> c_2 c = Solid PEC rb -> c_ext c = true -> has (c_med c) e u -> (0 < ra)%Re -> (0 < rb)%Re -> (0 < c_L c)%Re -> (0 < k)%Re ->
  (conv < 1)%Re -> (N <= N')%coq_nat -> (M <= M')%coq_nat -> (N < N')%coq_nat \/ (M < M')%coq_nat -> some_orders (truncated c N M) m -> let U N M := trip mie_bessels (truncated c N M) m k in
  (forall j, (0 <= \tr (mxpow (U N M) j.+1) <= \tr (mxpow (U N' M') j.+1))%Re) /\ (0 < \tr (U N M) < \tr (U N' M'))%Re /\
  ((\tr (U N' M') < 1)%Re -> exists v v' F, (forall fuel, (F <= fuel)%N -> rt_lndet mie_bessels trans_bessels (truncated c N M) fuel conv m [:: k] = Some (Val [:: Fin v]) /\
      rt_lndet mie_bessels trans_bessels (truncated c N' M') fuel conv m [:: k] = Some (Val [:: Fin v'])) /\ (v' < v)%Re /\ (v < 0)%Re).
Proof.
move=> c ra rb e u m k conv N M N' M' e1 e2 hx hm ha hb hL hk hc hN hM hlt ho U.
have so : solid_ok PEC by left.
have one : (1%Re : R) * 1%Re = 1 by exact: mul1r.
have [[A eA] [B eB]] := @mieAB_val (truncated c N M) PEC PEC ra rb k e u e1 e2 so so hm ha hb hk.
have [[A' eA'] [B' eB']] := @mieAB_val (truncated c N' M') PEC PEC ra rb k e u e1 e2 so so hm ha hb hk.
have z1 : signs N' k (mieA mie_bessels (truncated c N' M')) by rewrite /mieA [c_1 _]/= e1; apply: (pec_ext_signs _ _ _ _ _ _ hm ha hk).
have z2 : signs M' k (mieB mie_bessels (truncated c N' M')) by rewrite /mieB [c_2 _]/= e2 [c_ext _]/= hx; apply: (pec_ext_signs _ _ _ _ _ _ hm hb hk).
have s1 := signs_signed z1; have s2 := signs_signed z2.
have [t1 t2] := cut_gap code_nested e1 e2 so so hm ha hb hL hk hx one hN hM ho s1 s2.
have p1 := cut_strict code_nested e1 e2 so so hm ha hb hL hk hx one hN hM ho s1 s2 hlt (signs_pos z1) (signs_pos z2).
have p0 := @pec_trace_pos (truncated c N M) ra rb e u m k e1 e2 hx hm ha hb hL hk ho.
split; first exact: t1.
split; first by split.
move=> ht; have [d d' hv] := t2 ht; have [F hF] := cut_run eA eB eA' eB' hm hk hL ho (cut_orders hN hM ho) hc d' d.
exists (ln (\det (1%:M - U N M))), (ln (\det (1%:M - U N' M'))), F; split; first exact: hF.
have aux (a b x y : R) : (a + (x - y) <= b -> y < x -> a < b)%Re by lra.
split; first exact: (aux _ _ _ _ hv p1).
have [_ r2] := @C61_perfect_reflectors (truncated c N M) ra rb e u m k conv e1 e2 hm ha hb hL hk ho hc.
have [w [F2 [hw [_ hw2]]]] := r2 (Rlt_trans _ _ _ p1 ht).
have [ew _] := hF (maxn F F2) (leq_maxl _ _); move: (hw (maxn F F2) (leq_maxr _ _)); rewrite ew => -[->].
have aux2 (a x : R) : (a <= - x -> 0 < x -> a < 0)%Re by lra.
exact: (aux2 _ _ hw2 p0).
Qed.
Print Assumptions C76_perfect_reflectors.

(** ** Non-vacuity: a gold sphere and a perfect reflector in vacuum, orders up to 1 and 2 against orders up to 4 and 5 *)
Example C76_gold : exists L0, (0 < L0)%Re /\ forall L, (L0 <= L)%Re -> let c := at_distance gold_in_vacuum L in
  (\tr (trip exact_bessels (truncated c 4 5) 1 2) < 1)%Re /\ some_orders (truncated c 1 2) 1 /\
  exists v v' F, (forall fuel, (F <= fuel)%N -> rt_lndet exact_bessels trans_bessels (truncated c 1 2) fuel 1e-10 1 [:: 2%Re] = Some (Val [:: Fin v]) /\
      rt_lndet exact_bessels trans_bessels (truncated c 4 5) fuel 1e-10 1 [:: 2%Re] = Some (Val [:: Fin v'])) /\ (v' <= v)%Re /\ (v <= 0)%Re.
Proof.
have p2 : (0 < 2)%Re by lra.
have p1 : (0 < 1)%Re by lra.
have hc : (1e-10 < 1)%Re by lra.
have [g1 [g2 _]] := C61_gold p2.
have o12 L : some_orders (truncated (at_distance gold_in_vacuum L) 1 2) 1 by rewrite /some_orders /lmin /=; lia.
have [_ [o1 o2]] : some_orders (truncated gold_in_vacuum 4 5) 1 by rewrite /some_orders /lmin /=; lia.
have [[A eA] [B eB]] := @exact_val (truncated gold_in_vacuum 4 5) _ _ 1%Re 2%Re 2%Re _ _ erefl erefl (contrast_solid g1) (contrast_solid g2) vacuum_has p1 p2 p2.
have [L0 h] := @C62_far exact_bessels (truncated gold_in_vacuum 4 5) 1 2%Re _ _ A B 1%Re erefl eA eB vacuum_has p2 p1 o1 o2.
exists (Rmax 1 L0); have q1 := Rmax_l 1 L0; have q2 := Rmax_r 1 L0; split; first lra.
move=> L hL c; have hL0 : (0 < L)%Re by lra.
have hLL : (L0 <= L)%Re by lra.
have [ht _] := h L hLL.
have tr1 : (\tr (trip exact_bessels (truncated c 4 5) 1 2) < 1)%Re by apply: Rle_lt_trans _ ht; exact: Rle_abs.
have n1 : (1 <= 4)%coq_nat by lia.
have n2 : (2 <= 5)%coq_nat by lia.
split=> //; split; first exact: o12.
have [tt rr] := @C76_truncation c _ _ 1%Re 2%Re _ _ 1%Z 2%Re 1 1e-10%Re 1 2 4 5 erefl erefl erefl vacuum_has p1 p2 hL0 p2 g1 g2 hc n1 n2 (o12 L).
have [v [v' [F [hF [b1 b2]]]]] := rr tr1; exists v, v', F; split=> //.
have := tt 0%N; rewrite /= !mulmx1 => -[z1 z2].
have aux (a b x y : R) : (a + (x - y) <= b -> b <= - y -> 0 <= y -> y <= x -> a <= b /\ b <= 0)%Re by lra.
exact: (aux _ _ _ _ b1 b2 z1 z2).
Qed.
