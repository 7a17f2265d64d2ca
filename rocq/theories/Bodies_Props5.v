(** * Property C103: stratified spheres on either side of the medium: bounds of the coefficients and convergence in the largest orders *)
From Coq Require Import Reals.
From Coq Require Import List Lia Lra ZArith Sorted.
From mathcomp Require Import all_ssreflect ssralg ssrnum fingroup perm matrix mxalgebra poly mxpoly.
From Verif Require Import Base RStruct Mat_Model Mat_Spec Mat_Proofs Bessel_Model Bessel_Spec Scat_Model Scat_Spec Scat_Proofs Scat_Proofs4 Scat_Proofs7 Scat_Proofs9 Scat_Proofs10 Scat_Props Scat_Props2 Trans_Model Trans_Spec Trans_Proofs3
  Lin_Model Lin_Spec Bal_Proofs Lin_Proofs Trip_Proofs Lin_Proofs2 RT_Model RT_Spec RT_Spec2 RT_Proofs RT_Proofs2 RT_Proofs3 RT_Proofs4 RT_Proofs6 RT_Proofs7 RT_Proofs8 RT_Proofs9 RT_Proofs10
  RT_Props RT_Props2 RT_Props3 RT_Props5 Exp_Proofs2 Lap_Proofs2 Mono_Proofs Mono_Proofs2 Mono_Proofs3 RT_Props8 Cut_Proofs RT_Props9 Rad_Spec Rad_Proofs Rad_Proofs2 RT_Props10
  Conv_Spec Conv_Proofs3 Conv_Proofs4 Conv_Proofs5 Conv_Proofs6 Conv_Proofs7 Conv_Props Conv_Props2 Layer_Spec Layer_Proofs3 Layer_Proofs4 Layer_Props Bodies_Spec Bodies_Proofs4 Bodies_Props Bodies_Props2 Bodies_Proofs7.
Set Implicit Arguments.
Unset Strict Implicit.
Import GRing.Theory.
Local Open Scope ring_scope.
Delimit Scope R_scope with Re.

Lemma sign_sq (s : R) n : s * s = 1 -> (s * (-1) ^ n * (s * (-1) ^ n) = 1)%Re.
Proof.
move=> ss; have e1 := m1_sq n; have r (a b : R) : (a * a = 1 -> b * b = 1 -> a * b * (a * b) = 1)%Re by move=> r1 r2; transitivity (a * a * (b * b))%Re; [ring|rewrite r1 r2; ring].
exact: r.
Qed.
Lemma object_up c sp e u k N j pick : has (c_med c) e u -> (0 < k)%Re -> object c sp -> pick = TE \/ pick = TM -> (j < N)%coq_nat ->
  (Rabs (entry pick (fun ks => match sp with Solid mm r => mie exact_bessels ks 0 (Z.of_nat N) r mm (c_med c) | Layered mats rs => flat (strat exact_bessels ks 0 (Z.of_nat N) (c_mat c) mats rs) end) j k) <= amp j.+1 (size e u k (rim sp)))%Re.
Proof.
move=> hm hk; case: sp => [mm r [hr hs]|mats rs hs] hp hj; first exact: (mie_up N (c_med c) e u hm k hk mm r j pick hp hs hr hj).
exact: (stack_up (c_mat c) (c_med c) k hk N mats rs j e u pick hm hs hj hp).
Qed.

(** ** the coefficients of any solid or stratified sphere are bounded by a number that depends only on the order and on the outermost radius *)
Theorem C103_coefficients : forall c sp e u k N j, has (c_med c) e u -> (0 < k)%Re -> object c sp -> (j < N)%coq_nat ->
  let T pick sp := entry pick (fun ks => match sp with Solid mm r => mie exact_bessels ks 0 (Z.of_nat N) r mm (c_med c) | Layered mats rs => flat (strat exact_bessels ks 0 (Z.of_nat N) (c_mat c) mats rs) end) j k in
  (Rabs (T TE sp) <= amp j.+1 (size e u k (rim sp)) /\ Rabs (T TM sp) <= amp j.+1 (size e u k (rim sp)))%Re /\
  (forall mats rs, sp = Layered mats rs -> let P pick := T pick (Solid PEC (rim sp)) in
    (0 <= (-1) ^ j.+1 * (P TE - T TE sp) /\ 0 <= (-1) ^ j.+1 * (T TE sp - P TM) /\ 0 <= (-1) ^ j.+1 * (P TE - T TM sp) /\ 0 <= (-1) ^ j.+1 * (T TM sp - P TM))%Re).
Proof.
move=> c sp e u k N j hm hk ho hj T; split; first by split; apply: object_up => //; [left|right].
move=> mats rs E P; move: ho; rewrite /P /T E => ho.
have [_ [h1 h2]] := pec_bound (c_mat c) (c_med c) k hk N mats rs j e u hm ho hj; have [h3 h4] := pec_range (c_mat c) (c_med c) k hk N mats rs j e u hm ho hj.
by [].
Qed.
Print Assumptions C103_coefficients.

Section Sides.
Context (c : config) (p q : sphere) (e u : R -> R) (m : Z) (k s th : R).
Context (hx : c_ext c = true) (hm : has (c_med c) e u) (hL : (0 < c_L c)%Re) (hk : (0 < k)%Re).
Context (g1 : body c s p e u k) (g2 : body c s q e u k) (hth : (0 < th <= 1)%Re) (hq : (rate th e u k (rim p) (rim q) (c_L c) < 1)%Re).
Let ra := rim p.
Let rb := rim q.
Let B := reach th e u m k ra rb (c_L c).
Let rs := rest th e u m k ra rb (c_L c).
Let d N M := truncated (with_spheres c p q) N M.
Let U N M := trip exact_bessels (d N M) m k.
Let W N M := weight (s_of m s) (s_of m s) (sgnZ m) (- sgnZ m) (rt_with exact_bessels (d N M) m k).
Let KK := (4 * kfac th (size e u k ra) (size e u k rb) (way e k (c_L c)) * (size e u k ra / way e k (c_L c)) * (size e u k rb / way e k (c_L c)) * rate th e u k ra rb (c_L c) ^ (2 * lmin m))%Re.
Lemma sides_a : (0 < ra)%Re. Proof. exact: (rim_pos hm hk g1). Qed.
Lemma sides_b : (0 < rb)%Re. Proof. exact: (rim_pos hm hk g2). Qed.
Lemma one_sq : s * s = 1. Proof. exact: (body_sq g1). Qed.
Lemma sides_B : (0 < B)%Re. Proof. exact: (B_pos m hm sides_a sides_b hL hk hth hq). Qed.
Lemma sides_rest N M : (0 < rs N M)%Re. Proof. exact: (@rest_pos (with_spheres c p q) ra rb e u m k th hm sides_a sides_b hL hk hth N M). Qed.
Lemma sides_positive N M : some_orders (d N M) m -> positive (s_of m s) (s_of m s) (sgnZ m) (- sgnZ m) (n1 (d N M) m) (n2 (d N M) m) (rt_with exact_bessels (d N M) m k).
Proof.
move=> ho; have [f1 _] := @body_A (d N M) e u k hm hk s g1; have [f2 _] := @body_B (d N M) e u k hm hk s hx g2.
exact: (@spheres_positive e u m k s hk (d N M) hx hm hL ho f1 f2).
Qed.
Lemma sides_cut N M N' M' i j : (N <= N')%coq_nat -> (M <= M')%coq_nat -> (i < n1 (d N M) m)%N -> (j < n2 (d N M) m)%N ->
  let e0 := rt_with exact_bessels (d N M) m k in let e1 := rt_with exact_bessels (d N' M') m k in
  aTE e0 i = aTE e1 i /\ aTM e0 i = aTM e1 i /\ bTE e0 j = bTE e1 j /\ bTM e0 j = bTM e1 j /\
  V0 e0 i j = V0 e1 i j /\ V1 e0 i j = V1 e1 i j /\ V2 e0 i j = V2 e1 i j /\ V3 e0 i j = V3 e1 i j.
Proof.
move=> hN hM /ltP hi /ltP hj.
exact: (@bodies_cut c p q e u k N N' M M' hx (body_object g1) (body_object g2) hm hL hk hN hM m i j hi hj).
Qed.
Lemma sides_sizes N M N' M' : (N <= N')%coq_nat -> (M <= M')%coq_nat -> (n1 (d N M) m <= n1 (d N' M') m)%N /\ (n2 (d N M) m <= n2 (d N' M') m)%N.
Proof. exact: cut_sizes. Qed.
Lemma sides_smaller N M N' M' : (N <= N')%coq_nat -> (M <= M')%coq_nat -> some_orders (d N M) m ->
  smaller (s_of m s) (s_of m s) (sgnZ m) (- sgnZ m) (n1 (d N M) m) (n2 (d N M) m) (rt_with exact_bessels (d N M) m k) (rt_with exact_bessels (d N' M') m k).
Proof.
move=> hN hM ho; have [p1 p2] := orders_pos ho; split.
- move=> i hi; have := sides_cut hN hM hi p2; cbv zeta; move=> [e1 [e2 _]].
  by rewrite /pE /pM; split; right; [rewrite e1|rewrite e2].
- move=> i hi; have := sides_cut hN hM p1 hi; cbv zeta; move=> [_ [_ [e1 [e2 _]]]].
  by rewrite /pE /pM; split; right; [rewrite e1|rewrite e2].
- move=> i j hi hj; have := sides_cut hN hM hi hj; cbv zeta; move=> [_ [_ [_ [_ [e1 [_ [e2 _]]]]]]].
  by rewrite /vv; split; right; [rewrite e1|rewrite e2].
Qed.
Lemma sides_gap N M N' M' : (N <= N')%coq_nat -> (M <= M')%coq_nat -> some_orders (d N M) m -> (forall j, (0 <= \tr (mxpow (U N M) j.+1) <= \tr (mxpow (U N' M') j.+1))%Re) /\
  ((\tr (U N' M') < 1)%Re -> [/\ (0 < \det (1%:M - U N' M'))%Re, (0 < \det (1%:M - U N M))%Re & (ln (\det (1%:M - U N' M')) + (\tr (U N' M') - \tr (U N M)) <= ln (\det (1%:M - U N M)))%Re]).
Proof.
move=> hN hM ho; have [z1 z2] := sides_sizes hN hM; have ho' : some_orders (d N' M') m by exact: (cut_orders hN hM ho).
have p0 := sides_positive ho; have p1 := sides_positive ho'.
exact: (compare_trips z1 z2 (@parity_rt exact_bessels (d N M) m k) (@parity_rt exact_bessels (d N' M') m k) (s_sq m one_sq) (s_sq m one_sq) (s_sq m one_sq) (sg_sq m) (sg_sq' m) p0 p1 (sides_smaller hN hM ho)).
Qed.
Lemma sides_trace N M : some_orders (d N M) m -> \tr (U N M) = box (n1 (d N M) m) (n2 (d N M) m) (W N M).
Proof.
move=> ho; exact: (trip_trace (@parity_rt exact_bessels (d N M) m k) (s_sq m one_sq) (s_sq m one_sq) (s_sq m one_sq) (sg_sq m) (sg_sq' m) (sides_positive ho)).
Qed.
Lemma sides_amp_A N M i : (i < n1 (d N M) m)%N -> (pE (s_of m s) (aTE (rt_with exact_bessels (d N M) m k)) (a2 (rt_with exact_bessels (d N M) m k)) i <= amp (lmin m + i) (size e u k ra) /\
  pM (s_of m s) (aTM (rt_with exact_bessels (d N M) m k)) (a2 (rt_with exact_bessels (d N M) m k)) i <= amp (lmin m + i) (size e u k ra))%Re.
Proof.
move=> /ltP hi; have hj : (Nat.add (lmin m - 1)%coq_nat i < N)%coq_nat by move: hi; rewrite /n1 /d /truncated /= /lmin; lia.
have ss := body_sq g1; have [-> -> _ _] := @blocks m k s (d N M) i; have eS : (lmin m + i)%N = S (Nat.add (lmin m - 1)%coq_nat i) by rewrite -plusE /lmin; lia.
rewrite eS; have ss1 := @sign_sq s (Nat.add (lmin m - 1)%coq_nat i + 1)%coq_nat ss.
by split; apply: (Rle_trans _ _ _ (Rle_abs _)); rewrite ?Rabs_Ropp abs_sgn //; [apply: (object_up hm hk (body_object g1) (or_introl erefl) hj)|apply: (object_up hm hk (body_object g1) (or_intror erefl) hj)].
Qed.
Lemma sides_amp_B N M i : (i < n2 (d N M) m)%N -> (pE (s_of m s) (bTE (rt_with exact_bessels (d N M) m k)) (b2 (rt_with exact_bessels (d N M) m k)) i <= amp (lmin m + i) (size e u k rb) /\
  pM (s_of m s) (bTM (rt_with exact_bessels (d N M) m k)) (b2 (rt_with exact_bessels (d N M) m k)) i <= amp (lmin m + i) (size e u k rb))%Re.
Proof.
move=> /ltP hi; have hj : (Nat.add (lmin m - 1)%coq_nat i < M)%coq_nat by move: hi; rewrite /n2 /d /truncated /= /lmin; lia.
have ss := body_sq g1; have [_ _ -> ->] := @blocks m k s (d N M) i; have eS : (lmin m + i)%N = S (Nat.add (lmin m - 1)%coq_nat i) by rewrite -plusE /lmin; lia.
rewrite eS; have ss1 := @sign_sq s (Nat.add (lmin m - 1)%coq_nat i + 1)%coq_nat ss; have eB : mieB exact_bessels (d N M) = fun ks => match q with Solid mm r => mie exact_bessels ks 0 (Z.of_nat M) r mm (c_med c) | Layered mats rs => flat (strat exact_bessels ks 0 (Z.of_nat M) (c_mat c) mats rs) end by rewrite /mieB [c_ext _]/= hx.
by rewrite eB; split; apply: (Rle_trans _ _ _ (Rle_abs _)); rewrite ?Rabs_Ropp abs_sgn //; [apply: (object_up hm hk (body_object g2) (or_introl erefl) hj)|apply: (object_up hm hk (body_object g2) (or_intror erefl) hj)].
Qed.
Lemma sides_up N M i j : some_orders (d N M) m -> (i < n1 (d N M) m)%N -> (j < n2 (d N M) m)%N -> (W N M i j <= KK * rate th e u k ra rb (c_L c) ^ i * rate th e u k ra rb (c_L c) ^ j)%Re.
Proof.
move=> ho hi hj; have [p1 p2 p3] := sides_positive ho; have [a1 a2] := p1 i hi; have [b1 b2] := p2 j hj; have [A1 A2] := sides_amp_A hi; have [B1 B2] := sides_amp_B hj.
set rt := rt_with exact_bessels (d N M) m k in a1 a2 b1 b2 A1 A2 B1 B2.
have li : (1 <= Nat.add (lmin m) i)%coq_nat /\ (Nat.add (lmin m) i <= N)%coq_nat by move/ltP: hi; rewrite /n1 /d /truncated /= -?plusE /lmin; lia.
have lj : (1 <= Nat.add (lmin m) j)%coq_nat /\ (Nat.add (lmin m) j <= M)%coq_nat by move/ltP: hj; rewrite /n2 /d /truncated /= -?plusE /lmin; lia.
have hmm : (Z.abs m <= Z.of_nat (Nat.min (lmin m + i) (lmin m + j)))%Z by have [o0 _] := ho; rewrite -plusE /lmin; lia.
have [T1 T2] := trans_up (c_med c) e u N M (lmin m + i) (lmin m + j) m k (c_L c) hm li lj hmm hk hL th hth.
set x := way e k (c_L c); have [t0 _] := hth; have px : (0 < x)%Re by exact: (xpos (c_med c) e u k (c_L c) hm hk hL).
have px1 : (0 < size e u k ra)%Re by exact: (@x1_pos c ra e u k hm sides_a hk).
have px2 : (0 < size e u k rb)%Re by exact: (@x1_pos c rb e u k hm sides_b hk).
have TB := tbound_nonneg th m (lmin m + i) (lmin m + j) x t0 (proj1 li) (proj1 lj) px.
have E0 : (Rabs (vv (sgnZ m) (V0 rt) (V4 rt) i j) <= (1 + x) * tbound th m (lmin m + i) (lmin m + j) x)%Re.
  have sg := sgnZ_sq m; set w := V0 rt i j; have -> : vv (sgnZ m) (V0 rt) (V4 rt) i j = ((sgnZ m) * (w * exp 0))%Re by [].
  rewrite exp_0 Rmult_1_r abs_sgn //; have : (Rabs w <= tbound th m (lmin m + i) (lmin m + j) x)%Re by rewrite /w /rt /= hx; exact: T1.
  move: (tbound _ _ _ _ _) TB => T TB; nra.
have M0 : (Rabs (vv (- sgnZ m) (V2 rt) (V4 rt) i j) <= (1 + x) * tbound th m (lmin m + i) (lmin m + j) x)%Re.
  have sg : (- sgnZ m * - sgnZ m = 1)%Re by have := sgnZ_sq m; lra.
  set w := V2 rt i j; have -> : vv (- sgnZ m) (V2 rt) (V4 rt) i j = ((- sgnZ m) * (w * exp 0))%Re by [].
  rewrite exp_0 Rmult_1_r abs_sgn //; have : (Rabs w <= x * tbound th m (lmin m + i) (lmin m + j) x)%Re by rewrite /w /rt /= hx; exact: T2.
  move: (tbound _ _ _ _ _) TB => T TB; nra.
have up a b v := @term_up th m (lmin m + i) (lmin m + j) (size e u k ra) (size e u k rb) x a b v t0 (proj1 li) (proj1 lj) hmm px1 px2 px.
have -> : (KK * rate th e u k ra rb (c_L c) ^ i * rate th e u k ra rb (c_L c) ^ j = 4 * (kfac th (size e u k ra) (size e u k rb) x * (size e u k ra / x) * (size e u k rb / x) * rate th e u k ra rb (c_L c) ^ Nat.add (lmin m + i) (lmin m + j)))%Re.
  have -> : Nat.add (lmin m + i) (lmin m + j) = Nat.add (Nat.mul 2 (lmin m)) (Nat.add i j) by rewrite -plusE; lia.
  by rewrite /KK -/x -multE !pow_add; ring.
have u1 := up _ _ _ (conj a1 A1) (conj b1 B1) E0; have u2 := up _ _ _ (conj a1 A1) (conj b2 B2) M0; have u3 := up _ _ _ (conj a2 A2) (conj b1 B1) M0; have u4 := up _ _ _ (conj a2 A2) (conj b2 B2) E0.
have r (w1 w2 w3 w4 y : R) : (w1 <= y -> w2 <= y -> w3 <= y -> w4 <= y -> w1 + w2 + w3 + w4 <= 4 * y)%Re by lra.
exact: (r _ _ _ _ _ u1 u2 u3 u4).
Qed.
Lemma sides_K : (0 < KK)%Re.
Proof. exact: (@K_pos c ra rb e u m k th hm sides_a sides_b hL hk hth). Qed.
Lemma sides_trip N M : some_orders (d N M) m -> (0 <= \tr (U N M) <= B)%Re.
Proof.
move=> ho; have [t1 _] := sides_gap (le_n N) (le_n M) ho; split; first by have [] := t1 0%N; rewrite /mxpow /= !mulmx1.
rewrite sides_trace //; exact: (box_le (Rlt_le _ _ sides_K) (q_ok hq) (fun i j => @sides_up N M i j ho)).
Qed.
Lemma sides_tail N M N' M' : some_orders (d N M) m -> (N <= N')%coq_nat -> (M <= M')%coq_nat -> (0 <= \tr (U N' M') - \tr (U N M) <= B * rs N M)%Re.
Proof.
move=> ho hN hM; have ho' : some_orders (d N' M') m by exact: (cut_orders hN hM ho).
have [t1 _] := sides_gap hN hM ho; have r (a b : R) : (a <= b -> 0 <= b - a)%Re by lra.
split; first by have [_] := t1 0%N; rewrite /mxpow /= !mulmx1; exact: r.
rewrite (sides_trace ho) (sides_trace ho'); have [z1 z2] := sides_sizes hN hM.
have -> : box (n1 (d N M) m) (n2 (d N M) m) (W N M) = box (n1 (d N M) m) (n2 (d N M) m) (W N' M').
  apply: nsum_eq => i hi; apply: nsum_eq => j hj.
  have := sides_cut hN hM hi hj; cbv zeta; move=> [e1 [e2 [e3 [e4 [e5 [_ [e6 _]]]]]]].
  by rewrite /W /weight /vv /pE /pM e1 e2 e3 e4 e5 e6.
have bt := box_tail (Rlt_le _ _ sides_K) (q_ok hq) (fun i j => @sides_up N' M' i j ho') z1 z2.
apply: (Rle_trans _ _ _ bt); right; rewrite /KK /B /reach /rs /rest /Rdiv; set Z := (_ * _ ^ (2 * lmin m))%Re.
by rewrite /n1 /n2 [c_lmax _]/= [c_lssmax _]/= /Rdiv Rmult_assoc [((_ + _) * _)%Re]Rmult_comm -Rmult_assoc.
Qed.
Lemma sides_sqrt N M N' M' : some_orders (d N M) m -> (N <= N')%coq_nat -> (M <= M')%coq_nat -> (0 <= sqrt (\tr (U N' M') * (\tr (U N' M') - \tr (U N M))) <= B * sqrt (rs N M))%Re.
Proof.
move=> ho hN hM; split; first exact: sqrt_pos.
have [a1 a2] := sides_trip (cut_orders hN hM ho); have [b1 b2] := sides_tail ho hN hM; have Bp := sides_B; have rp := sides_rest N M.
have -> : (B * sqrt (rs N M) = sqrt (B * (B * rs N M)))%Re.
  by rewrite -Rmult_assoc sqrt_mult; [rewrite sqrt_square //; lra|nra|lra].
by apply: sqrt_le_1_alt; apply: Rmult_le_compat.
Qed.
Lemma sides_compare N M N' M' : some_orders (d N M) m -> (N <= N')%coq_nat -> (M <= M')%coq_nat ->
  (forall j, (0 <= \tr (mxpow (U N' M') j.+1) - \tr (mxpow (U N M) j.+1) <= 2 * INR j.+1 * B ^ j.+1 * sqrt (rs N M))%Re) /\
  ((B < 1)%Re -> [/\ (0 < \det (1%:M - U N M))%Re, (0 < \det (1%:M - U N' M'))%Re & (ln (\det (1%:M - U N' M')) <= ln (\det (1%:M - U N M)) <= ln (\det (1%:M - U N' M')) + 2 * B * sqrt (rs N M) / (1 - B))%Re]).
Proof.
move=> ho hN hM; have ho' : some_orders (d N' M') m by exact: (cut_orders hN hM ho).
have [t1 t2] := sides_gap hN hM ho; have [z1 z2] := sides_sizes hN hM; have sm := sides_smaller hN hM ho; have P0 := sides_positive ho; have P1 := sides_positive ho'.
have hs := one_sq.
have up := upper_trips z1 z2 (@parity_rt exact_bessels (d N M) m k) (@parity_rt exact_bessels (d N' M') m k) (s_sq m hs) (s_sq m hs) (s_sq m hs) (sg_sq m) (sg_sq' m) P0 P1 sm.
have pw j := upper_powers z1 z2 (@parity_rt exact_bessels (d N M) m k) (@parity_rt exact_bessels (d N' M') m k) (s_sq m hs) (s_sq m hs) (s_sq m hs) (sg_sq m) (sg_sq' m) P0 P1 sm j.
rewrite -/(trip exact_bessels (d N M) m k) -/(trip exact_bessels (d N' M') m k) in up pw.
rewrite /U in t1 t2; have [q1 q2] := sides_sqrt ho hN hM; have [a1 a2] := sides_trip ho'; have [b1 _] := sides_tail ho hN hM; rewrite /U in q1 q2 a1 a2 b1; have Bp := sides_B.
split.
- move=> j; rewrite /U; split.
    have [_ hj] := t1 j; have r (x y : R) : (x <= y -> 0 <= y - x)%Re by lra.
    exact: r.
  apply: (Rle_trans _ _ _ (pw j)).
  have -> : (2 * INR j.+1 * B ^ j.+1 * sqrt (rs N M) = INR j.+1 * (2 * (B ^ j * (B * sqrt (rs N M)))))%Re by rewrite -[(B ^ j.+1)%Re]/(B * B ^ j)%Re; ring.
  apply: Rmult_le_compat_l; first exact: pos_INR.
  apply: Rmult_le_compat_l; first lra.
  by apply: Rmult_le_compat => //; [exact: pow_le|apply: pow_incr].
- move=> hB; have t' : (\tr (trip exact_bessels (d N' M') m k) < 1)%Re by exact: (Rle_lt_trans _ _ _ a2 hB).
  have [y1 y2 d3] := t2 t'; have d4 := up t'; split=> //; split.
    have r (x y z : R) : (x + z <= y -> 0 <= z -> x <= y)%Re by lra.
    exact: (r _ _ _ d3 b1).
  apply: (Rle_trans _ _ _ d4); apply: Rplus_le_compat_l.
  have i0 : (0 < / (1 - B))%Re by apply: Rinv_0_lt_compat; lra.
  have i1 : (/ (1 - \tr (trip exact_bessels (d N' M') m k)) <= / (1 - B))%Re by apply: Rinv_le_contravar; [lra|have r (x y : R) : (x <= y -> 1 - y <= 1 - x)%Re by lra]; exact: r.
  apply: Rmult_le_compat => //.
  + by apply: Rmult_le_pos => //; lra.
  + left; apply: Rinv_0_lt_compat; have r (x : R) : (x < 1 -> 0 < 1 - x)%Re by lra.
    exact: r.
  + by rewrite Rmult_assoc; apply: Rmult_le_compat_l; [lra|exact: q2].
Qed.
End Sides.

(** ** the traces of the powers of the round trip *)
Theorem C103_traces : forall c p q e u m k s th, c_ext c = true -> has (c_med c) e u -> (0 < c_L c)%Re -> (0 < k)%Re ->
  body c s p e u k -> body c s q e u k -> (0 < th <= 1)%Re -> (rate th e u k (rim p) (rim q) (c_L c) < 1)%Re -> (0 <= m)%Z ->
  let B := reach th e u m k (rim p) (rim q) (c_L c) in let d := truncated (with_spheres c p q) in let U N M := trip exact_bessels (d N M) m k in
  (forall N M, some_orders (d N M) m -> (0 <= \tr (U N M) <= B)%Re) /\
  forall j, exists w, forall N M, some_orders (d N M) m -> (w - 2 * INR j.+1 * B ^ j.+1 * sqrt (rest th e u m k (rim p) (rim q) (c_L c) N M) <= \tr (mxpow (U N M) j.+1) <= w)%Re.
Proof.
move=> c p q e u m k s th hx hm hL hk g1 g2 hth hq m0 B d U; split=> [N M ho|j]; first exact: (sides_trip hx hm hL hk g1 g2 hth hq ho).
have [|N M N' M' o a b|N M N' M' o a b|w hw] := @pair_limit (fun N M => some_orders (d N M) m) (fun N M => (- \tr (mxpow (U N M) j.+1))%Re)
  (fun N M => (2 * INR j.+1 * B ^ j.+1 * sqrt (rest th e u m k (rim p) (rim q) (c_L c) N M))%Re) (lmin m) (lmin m).
- by rewrite /some_orders /d /truncated /= /lmin; lia.
- exact: (cut_orders a b o).
- have [hj _] := sides_compare hx hm hL hk g1 g2 hth hq o a b; have := hj j; rewrite -/d -/U -/B.
  have r (x y z : R) : (0 <= x - y <= z -> - x <= - y <= - x + z)%Re by lra.
  exact: r.
- exists (- w)%Re => N M o; have := hw N M o; have r (x y z : R) : (x <= - y <= x + z -> - x - z <= y <= - x)%Re by lra.
  exact: r.
Qed.
Print Assumptions C103_traces.

(** ** a non-magnetic medium: the traces converge for all bodies that do not overlap *)
Theorem C103_disjoint : forall c p q e u m k s, c_ext c = true -> has (c_med c) e u -> (rim p + rim q < c_L c)%Re -> (0 < k)%Re -> u k = 1%Re -> body c s p e u k -> body c s q e u k -> (0 <= m)%Z ->
  let x := ((rim p + rim q) / c_L c)%Re in let d := truncated (with_spheres c p q) in let U N M := trip exact_bessels (d N M) m k in
  forall j, exists w K, forall N M, some_orders (d N M) m -> (w - K * (x ^ (N + 1 - lmin m) + x ^ (M + 1 - lmin m)) <= \tr (mxpow (U N M) j.+1) <= w)%Re.
Proof.
move=> c p q e u m k s hx hm hab hk hu g1 g2 m0 x d U j; have [_ [hp _]] := hm; have [pe _] := hp k hk.
have ha := rim_pos hm hk g1; have hb := rim_pos hm hk g2.
have hL : (0 < c_L c)%Re by lra.
have th1 : (0 < 1 <= 1)%Re by lra.
have iL : (0 < / c_L c)%Re by exact: Rinv_0_lt_compat.
have p0 : (0 < x)%Re by apply: Rmult_lt_0_compat => //; lra.
have p1 : (x < 1)%Re.
  by apply: (Rmult_lt_reg_r (c_L c)) => //; have -> : (x * c_L c = rim p + rim q)%Re; [rewrite /x; field; lra|lra].
have er : rate 1 e u k (rim p) (rim q) (c_L c) = (x ^ 2)%Re by exact: rate_gap.
have hq : (rate 1 e u k (rim p) (rim q) (c_L c) < 1)%Re by rewrite er /=; nra.
have [_ tr] := @C103_traces c p q e u m k s 1%Re hx hm hL hk g1 g2 th1 hq m0; have [w hw] := tr j.
exists w, (2 * INR j.+1 * reach 1 e u m k (rim p) (rim q) (c_L c) ^ j.+1)%Re => N M o; have [w1 w2] := hw N M o; split=> //.
apply: (Rle_trans _ _ _ _ w1); apply: Rplus_le_compat_l; apply: Ropp_le_contravar; apply: Rmult_le_compat_l.
  apply: Rmult_le_pos; first by have := pos_INR j.+1; lra.
  by apply: pow_le; left; exact: (B_pos m hm ha hb hL hk th1 hq).
rewrite /rest er -!pow_mult ![Nat.mul 2 _]Mult.mult_comm !pow_mult; set a := (x ^ _)%Re; set b := (x ^ _)%Re.
have a0 : (0 <= a)%Re by apply: pow_le; lra.
have b0 : (0 <= b)%Re by apply: pow_le; lra.
have ab : (0 <= a + b)%Re by lra.
rewrite -[X in (_ <= X)%Re](sqrt_square _ ab); apply: sqrt_le_1_alt; rewrite /=; nra.
Qed.
Print Assumptions C103_disjoint.

(** ** ln det, as returned by rt_lndet *)
Theorem C103_limit : forall c p q e u m k s th conv, c_ext c = true -> has (c_med c) e u -> (0 < c_L c)%Re -> (0 < k)%Re ->
  body c s p e u k -> body c s q e u k -> (0 < th <= 1)%Re -> (rate th e u k (rim p) (rim q) (c_L c) < 1)%Re -> (0 <= m)%Z -> (conv < 1)%Re ->
  let B := reach th e u m k (rim p) (rim q) (c_L c) in let d := truncated (with_spheres c p q) in (B < 1)%Re ->
  exists w, (ln (1 - B) <= w <= 0)%Re /\ forall N M, some_orders (d N M) m -> exists v F, (forall fuel, (F <= fuel)%N -> rt_lndet exact_bessels trans_bessels (d N M) fuel conv m [:: k] = Some (Val [:: Fin v])) /\
    (w <= v <= w + 2 * B * sqrt (rest th e u m k (rim p) (rim q) (c_L c) N M) / (1 - B))%Re.
Proof.
move=> c p q e u m k s th conv hx hm hL hk g1 g2 hth hq m0 hc B d hB.
pose U N M := trip exact_bessels (d N M) m k.
have cmp N M N' M' o a b := proj2 (@sides_compare c p q e u m k s th hx hm hL hk g1 g2 hth hq N M N' M' o a b) hB.
have o0 : some_orders (d (lmin m) (lmin m)) m by rewrite /some_orders /d /truncated /= /lmin; lia.
have [|N M N' M' o a b|N M N' M' o a b|w hw] := @pair_limit (fun N M => some_orders (d N M) m) (fun N M => ln (\det (1%:M - U N M)))
  (fun N M => (2 * B * sqrt (rest th e u m k (rim p) (rim q) (c_L c) N M) / (1 - B))%Re) (lmin m) (lmin m).
- exact: o0.
- exact: (cut_orders a b o).
- by have [_ _] := cmp N M N' M' o a b.
have run N M : some_orders (d N M) m -> exists F, (forall fuel, (F <= fuel)%N -> rt_lndet exact_bessels trans_bessels (d N M) fuel conv m [:: k] = Some (Val [:: Fin (ln (\det (1%:M - U N M)))])) /\
  (ln (1 - B) <= ln (\det (1%:M - U N M)) <= 0)%Re.
  move=> o; have [y _ _] := cmp N M N M o (le_n N) (le_n M); have [t1 t2] := sides_trip hx hm hL hk g1 g2 hth hq o.
  have [_ [A eA]] := @body_A (d N M) e u k hm hk s g1; have [_ [B' eB]] := @body_B (d N M) e u k hm hk s hx g2.
  have [F hF] := @cut_run exact_bessels (with_spheres c p q) m k e u conv A B' A B' N M N M eA eB eA eB hm hk hL o o hc y y.
  have [_ r2] := @C98_attraction (d N M) e u m k s conv hx hm hL hk o g1 g2 hc.
  have [v [F' [hv [l1 l2]]]] := r2 (Rle_lt_trans _ _ _ t2 hB).
  have [ew _] := hF (maxn F F') (leq_maxl _ _); move: (hv (maxn F F') (leq_maxr _ _)); rewrite ew => -[ev]; rewrite -/d -/(U N M) in ev.
  exists F; split; first by move=> fuel /hF [].
  rewrite ev; split.
    apply: (Rle_trans _ _ _ _ l1); have r (x y0 : R) : (x <= y0 -> y0 < 1 -> ln (1 - y0) <= ln (1 - x))%Re.
      by move=> [h|->] h'; [left; apply: ln_increasing; lra|right].
    exact: (r _ _ t2 hB).
  have r (x y0 : R) : (x <= - y0 -> 0 <= y0 -> x <= 0)%Re by lra.
  exact: (r _ _ l2 t1).
have Bp : (0 < B)%Re by exact: (B_pos m hm (rim_pos hm hk g1) (rim_pos hm hk g2) hL hk hth hq).
exists w; split; last by move=> N M o; have [F [hF _]] := run N M o; exists (ln (\det (1%:M - U N M))), F; split; [exact: hF|exact: hw].
split; last by have [_ [_ [_ z]]] := run _ _ o0; have [z1 _] := hw _ _ o0; exact: (Rle_trans _ _ _ z1 z).
apply: le_epsilon => eps he; have K0 : (0 < 2 * B * / (1 - B))%Re by apply: Rmult_lt_0_compat; [lra|apply: Rinv_0_lt_compat; lra].
have [n0 hn] := rest_small m (q_ok hq) K0 he; pose N := (n0 + lmin m)%coq_nat.
have o : some_orders (d N N) m by rewrite /some_orders /d /truncated /= /N /lmin; lia.
have nN : (n0 <= N)%coq_nat by rewrite /N; lia.
have [_ [_ [z _]]] := run _ _ o; have [_ z2] := hw _ _ o; have z3 := hn N N nN nN.
have e3 : (2 * B * sqrt (rest th e u m k (rim p) (rim q) (c_L c) N N) / (1 - B) = 2 * B * / (1 - B) * sqrt (rest th e u m k (rim p) (rim q) (c_L c) N N))%Re by rewrite /Rdiv; ring.
rewrite e3 in z2; move: z z2 z3; set x := ln (\det _); lra.
Qed.
Print Assumptions C103_limit.

(** ** the hypotheses hold for every pair of bodies that are far enough apart *)
Theorem C103_far : forall c p q e u m k s conv, c_ext c = true -> has (c_med c) e u -> (0 < k)%Re -> body c s p e u k -> body c s q e u k -> (0 <= m)%Z -> (conv < 1)%Re ->
  exists L0, (0 < L0)%Re /\ forall L, (L0 <= L)%Re -> exists w, (w <= 0)%Re /\ forall eps, (0 < eps)%Re -> exists N0, forall N M, (N0 <= N)%coq_nat -> (N0 <= M)%coq_nat -> exists v F,
    (forall fuel, (F <= fuel)%N -> rt_lndet exact_bessels trans_bessels (truncated (with_spheres (at_distance c L) p q) N M) fuel conv m [:: k] = Some (Val [:: Fin v])) /\ (w <= v < w + eps)%Re.
Proof.
move=> c p q e u m k s conv hx hm hk g1 g2 m0 hc; have [_ [hp _]] := hm; have [pe pu] := hp k hk.
have ha := rim_pos hm hk g1; have hb := rim_pos hm hk g2.
have [L0 [p0 far]] := reach_far e u m k (rim p) (rim q) pe pu hk ha hb; exists L0; split=> // L hL; have [hq [B0 B1]] := far L hL.
have pL : (0 < L)%Re by exact: Rlt_le_trans hL.
have th1 : (0 < 1 <= 1)%Re by lra.
have [w [[_ w0] hw]] := @C103_limit (at_distance c L) p q e u m k s 1%Re conv hx hm pL hk g1 g2 th1 hq m0 hc B1.
exists w; split=> // eps he; set B := reach _ _ _ _ _ _ _ _ in hw B0 B1; have K0 : (0 < 2 * B * / (1 - B))%Re by apply: Rmult_lt_0_compat; [lra|apply: Rinv_0_lt_compat; lra].
have [n0 hn] := rest_small m (@q_ok (at_distance c L) (rim p) (rim q) e u k 1%Re hq) K0 he; exists (n0 + lmin m)%coq_nat => N M hN hM.
have o : some_orders (truncated (with_spheres (at_distance c L) p q) N M) m by rewrite /some_orders /truncated /=; move: hN hM; rewrite /lmin; lia.
have [v [F [hF [v1 v2]]]] := hw N M o; exists v, F; split=> //; split=> //.
have z := hn N M ltac:(lia) ltac:(lia); apply: (Rle_lt_trans _ _ _ v2); apply: Rplus_lt_compat_l; apply: (Rle_lt_trans _ _ _ _ z); right; rewrite /Rdiv; ring.
Qed.
Print Assumptions C103_far.

(** ** Non-vacuity: two bubbles with a shell of vacuum in a metallic medium *)
Definition foam : sphere := Layered [:: 2; 2; 1]%N [:: 1; 2]%Re.
Lemma foam_thinner k : (0 < k)%Re -> body bubble (-1) foam (eps_spec e_Gold) (mu_val None) k.
Proof.
move=> hk; have gold m : In m [:: 1%N] -> exists e u, has (some_mats m) e u by move=> [<-|[]]; exists (eps_spec e_Gold), (mu_val None); exact gold_has.
have gw : weaker (Lorentz e_Gold None) (Lorentz e_Gold None) k by right; exists (eps_spec e_Gold), (mu_val None), (eps_spec e_Gold), (mu_val None); do 2 (split; first exact gold_has); split; right.
split.
- exists 2%N, 2%N, [:: 1%N], 1%Re, [:: 2%Re]; do 3 (split; first reflexivity); split; first lra; split; first exact sorted12.
  split; first reflexivity; split; last by left; exists (eps_spec [::]), (mu_val None); exact vacuum_has.
  by move=> m [<-|h]; [exists (eps_spec [::]), (mu_val None); exact vacuum_has|exact: gold].
- right; split=> //; constructor; first exact: gold_weaker.
  by constructor; [exact: gold_weaker|constructor; [exact: gw|constructor]].
Qed.
Example C103_bubbles : exists L0, (0 < L0)%Re /\ forall L, (L0 <= L)%Re -> exists w, (w <= 0)%Re /\ forall eps, (0 < eps)%Re -> exists N0, forall N M, (N0 <= N)%coq_nat -> (N0 <= M)%coq_nat -> exists v F,
    (forall fuel, (F <= fuel)%N -> rt_lndet exact_bessels trans_bessels (truncated (with_spheres (at_distance bubble L) foam foam) N M) fuel 1e-10 1 [:: 2%Re] = Some (Val [:: Fin v])) /\ (w <= v < w + eps)%Re.
Proof.
have p2 : (0 < 2)%Re by lra.
by apply: (@C103_far bubble foam foam _ _ 1%Z 2%Re (-1)%Re 1e-10%Re erefl gold_has p2 (foam_thinner p2) (foam_thinner p2)) => //; lra.
Qed.
Example C103_apart : (rim foam + rim foam < 5)%Re /\ forall j, exists w K, forall N M, let c := with_spheres (at_distance bubble 5) foam foam in some_orders (truncated c N M) 1 ->
  (w - K * (((rim foam + rim foam) / 5) ^ (N + 1 - lmin 1) + ((rim foam + rim foam) / 5) ^ (M + 1 - lmin 1)) <= \tr (mxpow (trip exact_bessels (truncated c N M) 1 2) j.+1) <= w)%Re.
Proof.
have p2 : (0 < 2)%Re by lra.
have hab : (rim foam + rim foam < c_L (at_distance bubble 5))%Re by rewrite /rim /=; lra.
split; first exact: hab.
by move=> j; exact: (@C103_disjoint (at_distance bubble 5) foam foam _ _ 1%Z 2%Re (-1)%Re erefl gold_has hab p2 erefl (foam_thinner p2) (foam_thinner p2) Z.le_0_1 j).
Qed.
(** the coefficients of the bubble *)
Example C103_range : (Rabs (entry TE (fun ks => flat (strat exact_bessels ks 0 3 some_mats [:: 2; 2; 1]%N [:: 1; 2]%Re)) 1 2) <= amp 2 (size (eps_spec e_Gold) (mu_val None) 2 2))%Re.
Proof.
have p2 : (0 < 2)%Re by lra.
have hj : (1 < 3)%coq_nat by lia.
by have [[h _] _] := @C103_coefficients bubble foam (eps_spec e_Gold) (mu_val None) 2%Re 3 1 gold_has p2 (body_object (foam_thinner p2)) hj.
Qed.
