(** * Property C104: determinants converge for all solid and stratified spheres that do not overlap, on any side of the medium *)
From Coq Require Import Reals.
From Coq Require Import List Lia Lra ZArith Sorted.
From mathcomp Require Import all_ssreflect ssralg ssrnum fingroup perm matrix mxalgebra poly mxpoly.
From Verif Require Import Base RStruct Mat_Model Mat_Spec Mat_Proofs Bessel_Model Bessel_Spec Scat_Model Scat_Spec Scat_Proofs Scat_Proofs4 Scat_Proofs7 Scat_Proofs9 Scat_Proofs10 Scat_Props Scat_Props2 Trans_Model Trans_Spec Trans_Proofs3
  Lin_Model Lin_Spec Bal_Proofs Lin_Proofs Trip_Proofs Lin_Proofs2 RT_Model RT_Spec RT_Spec2 RT_Proofs RT_Proofs2 RT_Proofs3 RT_Proofs4 RT_Proofs6 RT_Proofs7 RT_Proofs8 RT_Proofs9 RT_Proofs10
  RT_Props RT_Props2 RT_Props3 RT_Props5 Exp_Proofs2 Lap_Proofs2 Mono_Proofs Mono_Proofs2 Mono_Proofs3 RT_Props8 Cut_Proofs RT_Props9 Rad_Spec Rad_Proofs Rad_Proofs2 RT_Props10
  Conv_Spec Conv_Proofs3 Conv_Proofs4 Conv_Proofs5 Conv_Proofs6 Conv_Proofs7 Conv_Props Conv_Props2 Layer_Spec Layer_Proofs3 Layer_Proofs4 Layer_Props Bodies_Spec Bodies_Proofs4 Bodies_Props Bodies_Props2 Bodies_Proofs7 Bodies_Props5 Far_Proofs3 Lim_Proofs Lim_Proofs2 Lim_Proofs3 Lim_Props Bodies_Proofs8.
Set Implicit Arguments.
Unset Strict Implicit.
Import GRing.Theory.
Local Open Scope ring_scope.
Delimit Scope R_scope with Re.

Section Either.
Context (c : config) (e u : R -> R) (m : Z) (k s1 s2 th : R).
Let ra := rim (c_1 c).
Let rb := rim (c_2 c).
Context (hx : c_ext c = true) (hm : has (c_med c) e u) (hL : (0 < c_L c)%Re) (hk : (0 < k)%Re).
Context (g1 : body c s1 (c_1 c) e u k) (g2 : body c s2 (c_2 c) e u k) (hth : (0 < th <= 1)%Re) (hq : (rate th e u k ra rb (c_L c) < 1)%Re).
Let ha : (0 < ra)%Re := rim_pos hm hk g1.
Let hb : (0 < rb)%Re := rim_pos hm hk g2.
Let B := reach th e u m k ra rb (c_L c).
Let rs := rest th e u m k ra rb (c_L c).
Let U N M := trip exact_bessels (truncated c N M) m k.
Let C N M := part c m k s1 s2 N M.
Lemma either_sq : s1 * s2 = 1 \/ s1 * s2 = -1.
Proof.
have q1 := body_sq g1; have q2 := body_sq g2.
have /eqP : (s1 * s2 - 1) * (s1 * s2 + 1) = 0 by rewrite -subr_sqr expr1n expr2 mulrACA q1 q2 mulr1 subrr.
by rewrite mulf_eq0 subr_eq0 addr_eq0 => /orP [/eqP ->|/eqP ->]; [left|right].
Qed.
Lemma either_step N M N' M' : some_orders (truncated c N M) m -> (N <= N')%coq_nat -> (M <= M')%coq_nat ->
  [/\ (0 <= \tr (C N' M' *m (C N' M')^T) - \tr (C N M *m (C N M)^T) <= B * rs N M)%Re,
      (1 <= \det (1%:M + C N M *m (C N M)^T) <= exp B)%Re,
      (\det (1%:M + C N M *m (C N M)^T) <= \det (1%:M + C N' M' *m (C N' M')^T) <= \det (1%:M + C N M *m (C N M)^T) * exp (B * rs N M))%Re &
      (Rabs (\det (1%:M - C N' M' *m (C N' M')^T) - \det (1%:M - C N M *m (C N M)^T)) <= \det (1%:M + C N' M' *m (C N' M')^T) - \det (1%:M + C N M *m (C N M)^T))%Re].
Proof.
move=> ho hN hM; have ho' := cut_orders hN hM ho; have [z1 z2] := cut_sizes c m hN hM.
have [e1 t2] := @any_parts c e u m k s1 s2 th hx hm hL hk g1 g2 hth hq N M N' M' ho hN hM.
have [r1 r2] := any_reach hx hm hL hk g1 g2 hth hq ho.
have f1 := FE_iso z1; have f2 := FE_iso z2.
have p1 := part_plus (C N' M') f1 f2; have p2 := part_minus (C N' M') f1 f2; have p3 := part_trace (C N' M') f1 f2.
have t2' : (\tr (C N' M' *m (C N' M')^T) - \tr (C N M *m (C N M)^T) <= B * rs N M)%Re by exact: t2.
rewrite -[part c m k s1 s2 N M]/(C N M) -[part c m k s1 s2 N' M']/(C N' M') in e1.
rewrite -e1 in p1 p2 p3; have g := psd_plus (psd_gram (C N M)); have [_ gu] := psd_plus_up (psd_gram (C N M)).
split=> //.
- split; last exact: t2'.
  have [_ r] := p3; have aux (x y : R) : (x <= y -> 0 <= y - x)%Re by lra.
  exact: aux.
- split.
    have aux (x y : R) : (0 <= x -> 1 + x <= y -> 1 <= y)%Re by lra.
    exact: (aux _ _ r1 g).
  apply: (Rle_trans _ _ _ gu); rewrite -/(C N M) in r2; case: r2 => [lt|eq]; [left; exact: exp_increasing|right; congr exp; exact: eq].
- have [pa pb] := p1; split=> //; apply: (Rle_trans _ _ _ pb); apply: Rmult_le_compat_l.
    have aux (x y : R) : (0 <= x -> 1 + x <= y -> 0 <= y)%Re by lra.
    exact: (aux _ _ r1 g).
  by case: t2' => [lt|->]; [left; exact: exp_increasing|right].
Qed.
Lemma either_pos : (0 < B)%Re.
Proof. exact: (B_pos m hm ha hb hL hk hth hq). Qed.
Lemma either_rest N M : (0 < rs N M <= 2)%Re.
Proof.
split; first exact: (rest_pos m hm ha hb hL hk hth).
have [q0 q1] := @q_ok c ra rb e u k th hq.
rewrite /rs /rest; have p n : (rate th e u k ra rb (c_L c) ^ n <= 1)%Re by have := pow_incr _ 1%Re n (conj q0 (Rlt_le _ _ q1)); rewrite pow1.
have := p (Nat.sub (Nat.add N 1) (lmin m)); have := p (Nat.sub (Nat.add M 1) (lmin m)); move: (_ ^ _)%Re (_ ^ _)%Re => x y; lra.
Qed.
Lemma either_det N M : some_orders (truncated c N M) m -> \det (1%:M - U N M) = (if Reqb (s1 * s2) 1 then \det (1%:M - C N M *m (C N M)^T) else \det (1%:M + C N M *m (C N M)^T)).
Proof.
move=> ho; have [-> _] := any_gram hx hm hk g1 g2 ho; rewrite -/(C N M).
case: either_sq => es; case: Reqb_spec => h //.
- by rewrite es scale1r.
- have bad : (- (1 : R))%R = (1 : R) by rewrite -es.
  by move: bad; rewrite -RoppE oE; lra.
- by rewrite es scaleN1r opprK.
Qed.
Lemma either_gap N M N' M' : some_orders (truncated c N M) m -> (N <= N')%coq_nat -> (M <= M')%coq_nat -> (Rabs (\det (1%:M - U N' M') - \det (1%:M - U N M)) <= B * exp (3 * B) * rs N M)%Re.
Proof.
move=> ho hN hM; have ho' := cut_orders hN hM ho; have [_ [a1 a2] [b1 b2] c1] := either_step ho hN hM; have Bp := either_pos; have [r0 r2] := either_rest N M.
have lin : (\det (1%:M + C N' M' *m (C N' M')^T) - \det (1%:M + C N M *m (C N M)^T) <= B * exp (3 * B) * rs N M)%Re.
  move: b2 a1 a2; move: (\det (1%:M + C N M *m _)) (\det _) => d d' b2 a1 a2.
  have y0 : (0 <= B * rs N M)%Re by apply: Rmult_le_pos; lra.
  have eg := exp_gap y0; have e2 : (exp (B * rs N M) <= exp (2 * B))%Re.
    have [lt|->] : (B * rs N M <= 2 * B)%Re by nra.
      by left; exact: exp_increasing.
    by right.
  have e3 : (exp (3 * B) = exp B * exp (2 * B))%Re by rewrite -exp_plus; congr exp; ring.
  have pB := exp_pos B; have p2 := exp_pos (2 * B)%Re.
  have st : (d * (exp (B * rs N M) - 1) <= exp B * (B * rs N M * exp (2 * B)))%Re.
    apply: Rmult_le_compat => //; first lra.
      by have := exp_ineq1_le (B * rs N M)%Re; lra.
    by apply: (Rle_trans _ _ _ eg); apply: Rmult_le_compat_l.
  by rewrite e3; move: st; lra.
have dd : (0 <= \det (1%:M + C N' M' *m (C N' M')^T) - \det (1%:M + C N M *m (C N M)^T))%Re.
  have aux (x y : R) : (x <= y -> 0 <= y - x)%Re by lra.
  exact: aux.
rewrite (either_det ho) (either_det ho'); case: (Reqb _ _); first exact: (Rle_trans _ _ _ c1 lin).
by rewrite Rabs_pos_eq.
Qed.
End Either.

(** ** the determinants, for bodies on any side of the medium *)
Theorem C104_determinants : forall c e u m k s1 s2 th, c_ext c = true -> has (c_med c) e u -> (0 < c_L c)%Re -> (0 < k)%Re ->
  body c s1 (c_1 c) e u k -> body c s2 (c_2 c) e u k -> (0 < th <= 1)%Re -> (rate th e u k (rim (c_1 c)) (rim (c_2 c)) (c_L c) < 1)%Re -> (0 <= m)%Z ->
  let B := reach th e u m k (rim (c_1 c)) (rim (c_2 c)) (c_L c) in
  exists w, forall N M, some_orders (truncated c N M) m -> (Rabs (\det (1%:M - trip exact_bessels (truncated c N M) m k) - w) <= B * exp (3 * B) * rest th e u m k (rim (c_1 c)) (rim (c_2 c)) (c_L c) N M)%Re.
Proof.
move=> c e u m k s1 s2 th hx hm hL hk g1 g2 hth hq m0 B.
apply: (@pair_between (fun N M => some_orders (truncated c N M) m) _ _ (lmin m) (lmin m)).
- by rewrite /some_orders /truncated /= /lmin; lia.
- by move=> N M N' M' o a b; exact: (either_gap hx hm hL hk g1 g2 hth hq o a b).
Qed.
Print Assumptions C104_determinants.

Lemma bodies_lndet c e u m k s1 s2 conv N M : c_ext c = true -> has (c_med c) e u -> (0 < c_L c)%Re -> (0 < k)%Re ->
  body c s1 (c_1 c) e u k -> body c s2 (c_2 c) e u k -> (conv < 1)%Re -> some_orders (truncated c N M) m ->
  exists F, forall fuel, (F <= fuel)%N -> rt_lndet exact_bessels trans_bessels (truncated c N M) fuel conv m [:: k] = Some (Val [:: ln_abs_det (1%:M - trip exact_bessels (truncated c N M) m k)]).
Proof.
move=> hx hm hL hk g1 g2 hc ho.
have [_ [A eA]] := @body_A (truncated c N M) e u k hm hk s1 g1; have [_ [B eB]] := @body_B (truncated c N M) e u k hm hk s2 hx g2.
exact: (lndet_total eA eB hm hL hk (proj1 (proj2 ho)) (proj2 (proj2 ho)) hc).
Qed.
(** ** bodies on opposite sides: the values returned converge from below *)
Theorem C104_opposite : forall c e u m k s th conv, c_ext c = true -> has (c_med c) e u -> (0 < c_L c)%Re -> (0 < k)%Re ->
  body c s (c_1 c) e u k -> body c (- s) (c_2 c) e u k -> (0 < th <= 1)%Re -> (rate th e u k (rim (c_1 c)) (rim (c_2 c)) (c_L c) < 1)%Re -> (0 <= m)%Z -> (conv < 1)%Re ->
  let B := reach th e u m k (rim (c_1 c)) (rim (c_2 c)) (c_L c) in
  exists w, (0 <= w <= B)%Re /\ forall N M, some_orders (truncated c N M) m -> exists v F, (forall fuel, (F <= fuel)%N -> rt_lndet exact_bessels trans_bessels (truncated c N M) fuel conv m [:: k] = Some (Val [:: Fin v])) /\
    (w - B * rest th e u m k (rim (c_1 c)) (rim (c_2 c)) (c_L c) N M <= v <= w)%Re /\ (0 <= v)%Re.
Proof.
move=> c e u m k s th conv hx hm hL hk g1 g2 hth hq m0 hc B.
pose P N M := \det (1%:M - trip exact_bessels (truncated c N M) m k).
have sN : s * - s = -1 by rewrite mulrN (body_sq g1).
have eP N M : some_orders (truncated c N M) m -> P N M = \det (1%:M + part c m k s (- s) N M *m (part c m k s (- s) N M)^T).
  by move=> o; rewrite /P; have [-> _] := any_gram hx hm hk g1 g2 o; rewrite sN scaleN1r opprK.
have st N M N' M' o a b := @either_step c e u m k s (- s) th hx hm hL hk g1 g2 hth hq N M N' M' o a b.
have Bp : (0 < B)%Re by exact: (B_pos m hm (rim_pos hm hk g1) (rim_pos hm hk g2) hL hk hth hq).
have o0 : some_orders (truncated c (lmin m) (lmin m)) m by rewrite /some_orders /truncated /= /lmin; lia.
have bd N M : some_orders (truncated c N M) m -> (1 <= P N M)%Re /\ (0 <= ln (P N M) <= B)%Re.
  move=> o; have [_ [b1 b2] _ _] := st N M N M o (le_n N) (le_n M); rewrite -(eP _ _ o) in b1 b2.
  split=> //; split; first by rewrite -ln_1; apply: ln_le => //; lra.
  by rewrite -[B]ln_exp; apply: ln_le => //; lra.
have step N M N' M' : some_orders (truncated c N M) m -> (N <= N')%coq_nat -> (M <= M')%coq_nat -> (- ln (P N' M') <= - ln (P N M) <= - ln (P N' M') + B * rest th e u m k (rim (c_1 c)) (rim (c_2 c)) (c_L c) N M)%Re.
  move=> o a b; have o' := cut_orders a b o; have [_ _ [c1 c2] _] := st N M N' M' o a b; rewrite -(eP _ _ o) -(eP _ _ o') in c1 c2.
  have [p1 _] := bd _ _ o; have l1 : (ln (P N M) <= ln (P N' M'))%Re by apply: ln_le => //; lra.
  have l2 : (ln (P N' M') <= ln (P N M) + B * rest th e u m k (rim (c_1 c)) (rim (c_2 c)) (c_L c) N M)%Re.
    rewrite -[X in (_ + X)%Re]ln_exp -ln_mult; [apply: ln_le => //; lra|lra|exact: exp_pos].
  lra.
have [w hw] := pair_limit o0 (fun N M N' M' (o : some_orders (truncated c N M) m) a b => cut_orders a b o) step.
exists (- w)%Re; split.
- split; first by have [_ [z1 _]] := bd _ _ o0; have [z2 _] := hw _ _ o0; lra.
  apply: le_epsilon => eps he; have [n0 hn] := rest_lin m (q_ok hq) Bp he; pose N := (n0 + lmin m)%coq_nat.
  have o : some_orders (truncated c N N) m by rewrite /some_orders /truncated /= /N /lmin; lia.
  have nN : (n0 <= N)%coq_nat by rewrite /N; lia.
  by have [_ [_ z1]] := bd _ _ o; have [_ z2] := hw _ _ o; have := hn N N nN nN; lra.
- move=> N M o; have [p1 [p2 p3]] := bd _ _ o; have [F hF] := bodies_lndet hx hm hL hk g1 g2 hc o.
  exists (ln (P N M)), F; split; last by have := hw _ _ o; lra.
  move=> fuel hf; rewrite hF // /ln_abs_det -/(P N M); case: eqP => [e0|_]; first by rewrite e0 zE in p1; lra.
  by rewrite Rabs_pos_eq //; lra.
Qed.
Print Assumptions C104_opposite.

(** ** all bodies that do not overlap, in a non-magnetic medium *)
Theorem C104_disjoint : forall c e u m k s1 s2 conv, c_ext c = true -> has (c_med c) e u -> (rim (c_1 c) + rim (c_2 c) < c_L c)%Re -> (0 < k)%Re -> u k = 1%Re ->
  body c s1 (c_1 c) e u k -> body c s2 (c_2 c) e u k -> (0 <= m)%Z -> (conv < 1)%Re ->
  let q := (((rim (c_1 c) + rim (c_2 c)) / c_L c) ^ 2)%Re in let D N M := \det (1%:M - trip exact_bessels (truncated c N M) m k) in
  exists w K, [/\ forall N M, some_orders (truncated c N M) m -> (Rabs (D N M - w) <= K * (q ^ (N + 1 - lmin m) + q ^ (M + 1 - lmin m)))%Re,
    w <> 0%Re -> forall eps, (0 < eps)%Re -> exists N0, forall N M, (N0 <= N)%coq_nat -> (N0 <= M)%coq_nat -> exists v F,
      (forall fuel, (F <= fuel)%N -> rt_lndet exact_bessels trans_bessels (truncated c N M) fuel conv m [:: k] = Some (Val [:: Fin v])) /\ (Rabs (v - ln (Rabs w)) < eps)%Re &
    w = 0%Re -> forall b, exists N0, forall N M, (N0 <= N)%coq_nat -> (N0 <= M)%coq_nat -> exists x F,
      (forall fuel, (F <= fuel)%N -> rt_lndet exact_bessels trans_bessels (truncated c N M) fuel conv m [:: k] = Some (Val [:: x])) /\ (x = NInf \/ exists v, x = Fin v /\ (v < b)%Re)].
Proof.
move=> c e u m k s1 s2 conv hx hm hab hk hu g1 g2 m0 hc q D; have [_ [hp _]] := hm; have [pe _] := hp k hk.
have ha := rim_pos hm hk g1; have hb := rim_pos hm hk g2; have hL : (0 < c_L c)%Re by lra.
have th1 : (0 < 1 <= 1)%Re by lra.
have eq : rate 1 e u k (rim (c_1 c)) (rim (c_2 c)) (c_L c) = q by exact: rate_gap.
have iL : (0 < / c_L c)%Re by exact: Rinv_0_lt_compat.
have hr : (rate 1 e u k (rim (c_1 c)) (rim (c_2 c)) (c_L c) < 1)%Re.
  rewrite eq /q; have p0 : (0 <= (rim (c_1 c) + rim (c_2 c)) / c_L c)%Re by apply: Rmult_le_pos; lra.
  have p1 : ((rim (c_1 c) + rim (c_2 c)) / c_L c < 1)%Re by apply: (Rmult_lt_reg_r (c_L c)) => //; rewrite /Rdiv Rmult_assoc Rinv_l; lra.
  simpl; nra.
have hr' := @q_ok c (rim (c_1 c)) (rim (c_2 c)) e u k 1%Re hr.
have Bp : (0 < reach 1 e u m k (rim (c_1 c)) (rim (c_2 c)) (c_L c))%Re by exact: (B_pos m hm (rim_pos hm hk g1) (rim_pos hm hk g2) hL hk th1 hr).
set B := reach 1 e u m k (rim (c_1 c)) (rim (c_2 c)) (c_L c) in Bp.
have [w hw] := C104_determinants hx hm hL hk g1 g2 th1 hr m0; rewrite -/B in hw.
have Kp : (0 < B * exp (3 * B))%Re by apply: Rmult_lt_0_compat => //; exact: exp_pos.
have near del : (0 < del)%Re -> exists N0, forall N M, (N0 <= N)%coq_nat -> (N0 <= M)%coq_nat -> some_orders (truncated c N M) m /\ (Rabs (D N M - w) < del)%Re.
  move=> hd; have [n0 hn] := rest_lin m hr' Kp hd; exists (n0 + lmin m)%coq_nat => N M hN hM.
  have o : some_orders (truncated c N M) m by rewrite /some_orders /truncated /=; move: hN hM; rewrite /lmin; lia.
  split; first exact: o.
  by apply: (Rle_lt_trans _ _ _ (hw N M o)); apply: hn; lia.
exists w, (B * exp (3 * B))%Re; split.
- by move=> N M o; have := hw N M o; rewrite /rest eq.
- move=> w0 eps he; have [del [d0 hd]] := ln_near w0 he; have [N0 hN] := near del d0; exists N0 => N M a b.
  have [o x1] := hN N M a b; have [x0 x2] := hd _ x1; have [F hF] := bodies_lndet hx hm hL hk g1 g2 hc o.
  exists (ln (Rabs (D N M))), F; split=> // fuel hf; rewrite hF // /ln_abs_det -/(D N M); case: eqP => [e0|_] //.
- move=> w0 b; have [N0 hN] := near (exp b) (exp_pos b); exists N0 => N M a b'.
  have [o x1] := hN N M a b'; have [F hF] := bodies_lndet hx hm hL hk g1 g2 hc o.
  exists (ln_abs_det (1%:M - trip exact_bessels (truncated c N M) m k)), F; split=> //.
  rewrite /ln_abs_det -/(D N M); case: eqP => [e0|ne]; [by left|right].
  exists (ln (Rabs (D N M))); split=> //; rewrite -[b]ln_exp; apply: ln_increasing; first by apply: Rabs_pos_lt; exact: ne.
  by move: x1; rewrite w0 Rminus_0_r.
Qed.
Print Assumptions C104_disjoint.

(** ** Non-vacuity: a coated reflector and a bubble with a shell in a metallic medium, one unit apart *)
Lemma reflector_denser k : (0 < k)%Re -> body bubble 1 (c_1 bubble) (eps_spec e_Gold) (mu_val None) k.
Proof.
move=> hk; have gold m : In m [:: 1%N] -> exists e u, has (some_mats m) e u by move=> [<-|[]]; exists (eps_spec e_Gold), (mu_val None); exact gold_has.
have gw : weaker (Lorentz e_Gold None) (Lorentz e_Gold None) k by right; exists (eps_spec e_Gold), (mu_val None), (eps_spec e_Gold), (mu_val None); do 2 (split; first exact gold_has); split; right.
split.
- exists 0%N, 1%N, [::], 1%Re, [::]; do 3 (split; first reflexivity); split; first lra; split; first by constructor; constructor.
  by split; first reflexivity; split; [exact: gold|right; split=> //; left].
- by left; split=> //; constructor; [left|constructor; [exact: gw|constructor]].
Qed.
Example C104_bubble : exists w B, (0 <= w <= B)%Re /\ forall N M, (1 <= N)%coq_nat -> (1 <= M)%coq_nat -> exists v F,
  (forall fuel, (F <= fuel)%N -> rt_lndet exact_bessels trans_bessels (truncated bubble N M) fuel 1e-10 1 [:: 2%Re] = Some (Val [:: Fin v])) /\ (0 <= v <= w)%Re.
Proof.
have p2 : (0 < 2)%Re by lra.
have g1 := reflector_denser p2; have g2 : body bubble (- (1 : R)) (c_2 bubble) (eps_spec e_Gold) (mu_val None) 2 := foam_thinner p2.
have hr : (rate 1 (eps_spec e_Gold) (mu_val None) 2 (rim (c_1 bubble)) (rim (c_2 bubble)) (c_L bubble) < 1)%Re.
  have [_ [hp _]] := gold_has; have [pe _] := hp 2%Re p2.
  by rewrite rate_gap //= ; lra.
have [||||w [w0 h]] := @C104_opposite bubble _ _ 1%Z 2%Re 1%Re 1%Re 1e-10%Re erefl gold_has _ p2 g1 g2 _ hr; try (rewrite /=; lra); try by [].
exists w; eexists; split; first exact: w0.
move=> N M a b; have o : some_orders (truncated bubble N M) 1 by rewrite /some_orders /=; lia.
by have [v [F [hF [[_ v1] v2]]]] := h N M o; exists v, F.
Qed.
Example C104_apart : let D N M := \det (1%:M - trip exact_bessels (truncated bubble N M) 1 2) in
  exists w K, forall N M, some_orders (truncated bubble N M) 1 -> (Rabs (D N M - w) <= K * ((((1 + 2) / 4) ^ 2) ^ (N + 1 - 1) + (((1 + 2) / 4) ^ 2) ^ (M + 1 - 1)))%Re.
Proof.
move=> D; have p2 : (0 < 2)%Re by lra.
have g1 := reflector_denser p2; have g2 : body bubble (- (1 : R)) (c_2 bubble) (eps_spec e_Gold) (mu_val None) 2 := foam_thinner p2.
have [|||w [K [h _ _]]] := @C104_disjoint bubble _ _ 1%Z 2%Re _ _ 1e-10%Re erefl gold_has _ p2 erefl g1 g2; try (rewrite /rim /=; lra); try by [].
by exists w, K.
Qed.
