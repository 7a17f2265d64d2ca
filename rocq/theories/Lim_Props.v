(** * Property C86: determinants converge for all spheres that do not overlap *)
From Coq Require Import Reals.
From Coq Require Import List Lia Lra ZArith.
From mathcomp Require Import all_ssreflect ssralg ssrnum fingroup perm matrix mxalgebra poly mxpoly.
From Verif Require Import Base RStruct Mat_Model Mat_Spec Mat_Proofs Bessel_Model Scat_Model Scat_Spec Scat_Proofs Scat_Proofs4 Scat_Proofs7 Scat_Proofs9 Scat_Proofs10 Scat_Props2 Trans_Model Trans_Spec Trans_Proofs3
  Lin_Model Lin_Spec Bal_Proofs Lin_Proofs Trip_Proofs Lin_Proofs2 RT_Model RT_Spec RT_Spec2 RT_Proofs RT_Proofs2 RT_Proofs3 RT_Proofs4 RT_Proofs6 RT_Proofs7 RT_Proofs8 RT_Proofs9 RT_Proofs10
  RT_Props RT_Props2 RT_Props3 RT_Props5 Exp_Proofs2 Lap_Proofs2 Mono_Proofs Mono_Proofs2 Mono_Proofs3 RT_Props8 Cut_Proofs RT_Props9 RT_Props10 Conv_Spec Conv_Proofs3 Conv_Proofs4 Conv_Proofs5 Conv_Proofs6 Conv_Proofs7 Conv_Props Far_Proofs3 Lim_Proofs Lim_Proofs2 Lim_Proofs3 Run_Proofs4.
Set Implicit Arguments.
Unset Strict Implicit.
Import GRing.Theory.
Local Open Scope ring_scope.
Delimit Scope R_scope with Re.


Lemma rabs_le (x b : R) : (Rabs x <= b)%Re <-> (- b <= x <= b)%Re.
Proof. by split; [move=> h; have := Rle_abs x; have := Rle_abs (- x); rewrite Rabs_Ropp; lra|exact: Rabs_le]. Qed.
Lemma pair_between (ok : nat -> nat -> Prop) (v eps : nat -> nat -> R) N0 M0 : ok N0 M0 ->
  (forall N M N' M', ok N M -> (N <= N')%coq_nat -> (M <= M')%coq_nat -> (Rabs (v N' M' - v N M) <= eps N M)%Re) ->
  exists w, forall N M, ok N M -> (Rabs (v N M - w) <= eps N M)%Re.
Proof.
move=> h0 h.
have all N M N' M' : ok N M -> ok N' M' -> (v N M - eps N M <= v N' M' + eps N' M')%Re.
  move=> o o'; have a := h N M (N + N')%coq_nat (M + M')%coq_nat o (Plus.le_plus_l _ _) (Plus.le_plus_l _ _).
  have b := h N' M' (N + N')%coq_nat (M + M')%coq_nat o' (Plus.le_plus_r _ _) (Plus.le_plus_r _ _).
  by move/rabs_le: a; move/rabs_le: b; lra.
have [w [w1 w2]] : { w | is_lub (fun y => exists N M, ok N M /\ y = (v N M - eps N M)%Re) w }.
  apply: completeness; last by exists (v N0 M0 - eps N0 M0)%Re, N0, M0.
  by exists (v N0 M0 + eps N0 M0)%Re => y [N [M [o ->]]]; exact: all.
exists w => N M o; apply/rabs_le.
have a : (v N M - eps N M <= w)%Re by apply: w1; exists N, M.
have b : (w <= v N M + eps N M)%Re by apply: w2 => y [N' [M' [o' ->]]]; exact: all.
lra.
Qed.
Lemma exp_gap (y : R) : (0 <= y -> exp y - 1 <= y * exp y)%Re.
Proof.
move=> hy; have := exp_ineq1_le (- y); rewrite exp_Ropp => h; have p := exp_pos y.
have := Rmult_le_compat_l _ _ _ (Rlt_le _ _ p) h; rewrite Rinv_r; last lra.
lra.
Qed.

Section Sides.
Context (c : config) (m1 m2 : material) (ra rb : R) (e u : R -> R) (m : Z) (k s1 s2 th : R).
Context (h1 : c_1 c = Solid m1 ra) (h2 : c_2 c = Solid m2 rb) (hx : c_ext c = true) (hm : has (c_med c) e u) (ha : (0 < ra)%Re) (hb : (0 < rb)%Re) (hL : (0 < c_L c)%Re) (hk : (0 < k)%Re).
Context (g1 : contrast s1 m1 e u k) (g2 : contrast s2 m2 e u k) (hth : (0 < th <= 1)%Re) (hq : (rate th e u k ra rb (c_L c) < 1)%Re).
Let B := reach th e u m k ra rb (c_L c).
Let rs := rest th e u m k ra rb (c_L c).
Let U N M := trip exact_bessels (truncated c N M) m k.
Let C N M := part c m k s1 s2 N M.
Lemma sides_sq : s1 * s2 = 1 \/ s1 * s2 = -1.
Proof.
have q1 := contrast_sq g1; have q2 := contrast_sq g2.
have /eqP : (s1 * s2 - 1) * (s1 * s2 + 1) = 0 by rewrite -subr_sqr expr1n expr2 mulrACA q1 q2 mulr1 subrr.
by rewrite mulf_eq0 subr_eq0 addr_eq0 => /orP [/eqP ->|/eqP ->]; [left|right].
Qed.
Lemma C_step N M N' M' : some_orders (truncated c N M) m -> (N <= N')%coq_nat -> (M <= M')%coq_nat ->
  [/\ (0 <= \tr (C N' M' *m (C N' M')^T) - \tr (C N M *m (C N M)^T) <= B * rs N M)%Re,
      (1 <= \det (1%:M + C N M *m (C N M)^T) <= exp B)%Re,
      (\det (1%:M + C N M *m (C N M)^T) <= \det (1%:M + C N' M' *m (C N' M')^T) <= \det (1%:M + C N M *m (C N M)^T) * exp (B * rs N M))%Re &
      (Rabs (\det (1%:M - C N' M' *m (C N' M')^T) - \det (1%:M - C N M *m (C N M)^T)) <= \det (1%:M + C N' M' *m (C N' M')^T) - \det (1%:M + C N M *m (C N M)^T))%Re].
Proof.
move=> ho hN hM; have ho' := cut_orders hN hM ho; have [z1 z2] := cut_sizes c m hN hM.
have [e1 t2] := @parts c m1 m2 ra rb e u m k s1 s2 th h1 h2 hx hm ha hb hL hk g1 g2 hth hq N M N' M' ho hN hM.
have [r1 r2] := part_reach h1 h2 hx hm ha hb hL hk g1 g2 hth hq ho.
have f1 := FE_iso z1; have f2 := FE_iso z2.
have p1 := part_plus (C N' M') f1 f2; have p2 := part_minus (C N' M') f1 f2; have p3 := part_trace (C N' M') f1 f2.
have t2' : (\tr (C N' M' *m (C N' M')^T) - \tr (C N M *m (C N M)^T) <= B * rs N M)%Re by exact: t2.
rewrite -[part c m k s1 s2 N M]/(C N M) -[part c m k s1 s2 N' M']/(C N' M') in e1.
rewrite -e1 in p1 p2 p3; have g := psd_plus (psd_gram (C N M)); have [_ gu] := psd_plus_up (psd_gram (C N M)).
split=> //.
- split; last exact: t2'.
  have [_ r] := p3; have aux (x y : R) : (x <= y -> 0 <= y - x)%Re by lra.
  exact: aux.
- split.
    have aux (x y : R) : (0 <= x -> 1 + x <= y -> 1 <= y)%Re by lra.
    exact: (aux _ _ r1 g).
  apply: (Rle_trans _ _ _ gu); rewrite -/(C N M) in r2; case: r2 => [lt|eq]; [left; exact: exp_increasing|right; congr exp; exact: eq].
- have [pa pb] := p1; split=> //; apply: (Rle_trans _ _ _ pb); apply: Rmult_le_compat_l.
    have aux (x y : R) : (0 <= x -> 1 + x <= y -> 0 <= y)%Re by lra.
    exact: (aux _ _ r1 g).
  by case: t2' => [lt|->]; [left; exact: exp_increasing|right].
Qed.
Lemma reach_pos : (0 < B)%Re.
Proof. exact: (B_pos m hm ha hb hL hk hth hq). Qed.
Lemma rest_two N M : (0 < rs N M <= 2)%Re.
Proof.
split; first exact: (rest_pos m hm ha hb hL hk hth).
have [q0 q1] := @q_ok c ra rb e u k th hq.
rewrite /rs /rest; have p n : (rate th e u k ra rb (c_L c) ^ n <= 1)%Re by have := pow_incr _ 1%Re n (conj q0 (Rlt_le _ _ q1)); rewrite pow1.
have := p (Nat.sub (Nat.add N 1) (lmin m)); have := p (Nat.sub (Nat.add M 1) (lmin m)); move: (_ ^ _)%Re (_ ^ _)%Re => x y; lra.
Qed.
Lemma U_det N M : some_orders (truncated c N M) m -> \det (1%:M - U N M) = (if Reqb (s1 * s2) 1 then \det (1%:M - C N M *m (C N M)^T) else \det (1%:M + C N M *m (C N M)^T)).
Proof.
move=> ho; have [-> _] := sides_gram h1 h2 hx hm ha hb hk g1 g2 ho; rewrite -/(C N M).
case: sides_sq => es; case: Reqb_spec => h //.
- by rewrite es scale1r.
- have bad : (- (1 : R))%R = (1 : R) by rewrite -es.
  by move: bad; rewrite -RoppE oE; lra.
- by rewrite es scaleN1r opprK.
Qed.
Lemma gap N M N' M' : some_orders (truncated c N M) m -> (N <= N')%coq_nat -> (M <= M')%coq_nat -> (Rabs (\det (1%:M - U N' M') - \det (1%:M - U N M)) <= B * exp (3 * B) * rs N M)%Re.
Proof.
move=> ho hN hM; have ho' := cut_orders hN hM ho; have [_ [a1 a2] [b1 b2] c1] := C_step ho hN hM; have Bp := reach_pos; have [r0 r2] := rest_two N M.
have lin : (\det (1%:M + C N' M' *m (C N' M')^T) - \det (1%:M + C N M *m (C N M)^T) <= B * exp (3 * B) * rs N M)%Re.
  move: b2 a1 a2; move: (\det (1%:M + C N M *m _)) (\det _) => d d' b2 a1 a2.
  have y0 : (0 <= B * rs N M)%Re by apply: Rmult_le_pos; lra.
  have eg := exp_gap y0; have e2 : (exp (B * rs N M) <= exp (2 * B))%Re.
    have [lt|->] : (B * rs N M <= 2 * B)%Re by nra.
      by left; exact: exp_increasing.
    by right.
  have e3 : (exp (3 * B) = exp B * exp (2 * B))%Re by rewrite -exp_plus; congr exp; ring.
  have pB := exp_pos B; have p2 := exp_pos (2 * B)%Re.
  have st : (d * (exp (B * rs N M) - 1) <= exp B * (B * rs N M * exp (2 * B)))%Re.
    apply: Rmult_le_compat => //; first lra.
      by have := exp_ineq1_le (B * rs N M)%Re; lra.
    by apply: (Rle_trans _ _ _ eg); apply: Rmult_le_compat_l.
  by rewrite e3; move: st; lra.
have dd : (0 <= \det (1%:M + C N' M' *m (C N' M')^T) - \det (1%:M + C N M *m (C N M)^T))%Re.
  have aux (x y : R) : (x <= y -> 0 <= y - x)%Re by lra.
  exact: aux.
rewrite (U_det ho) (U_det ho'); case: (Reqb _ _); first exact: (Rle_trans _ _ _ c1 lin).
by rewrite Rabs_pos_eq.
Qed.
End Sides.

(** ** the determinants, for spheres on any side of the medium *)
Theorem C86_determinants : forall c m1 m2 ra rb e u m k s1 s2 th, c_1 c = Solid m1 ra -> c_2 c = Solid m2 rb -> c_ext c = true -> has (c_med c) e u -> (0 < ra)%Re -> (0 < rb)%Re -> (0 < c_L c)%Re -> (0 < k)%Re ->
  contrast s1 m1 e u k -> contrast s2 m2 e u k -> (0 < th <= 1)%Re -> (rate th e u k ra rb (c_L c) < 1)%Re -> (0 <= m)%Z ->
  let B := reach th e u m k ra rb (c_L c) in
  exists w, forall N M, some_orders (truncated c N M) m -> (Rabs (\det (1%:M - trip exact_bessels (truncated c N M) m k) - w) <= B * exp (3 * B) * rest th e u m k ra rb (c_L c) N M)%Re.
Proof.
move=> c m1 m2 ra rb e u m k s1 s2 th h1 h2 hx hm ha hb hL hk g1 g2 hth hq m0 B.
apply: (@pair_between (fun N M => some_orders (truncated c N M) m) _ _ (lmin m) (lmin m)).
- by rewrite /some_orders /truncated /= /lmin; lia.
- by move=> N M N' M' o a b; exact: (gap h1 h2 hx hm ha hb hL hk g1 g2 hth hq o a b).
Qed.
Print Assumptions C86_determinants.

Lemma rest_lin th e u m k ra rb L K : (0 <= rate th e u k ra rb L < 1)%Re -> (0 < K)%Re -> forall eps, (0 < eps)%Re -> exists N0, forall N M, (N0 <= N)%coq_nat -> (N0 <= M)%coq_nat -> (K * rest th e u m k ra rb L N M < eps)%Re.
Proof.
move=> hq hK eps he; have K2 : (0 < 2 * K)%Re by lra.
have [N0 h] := rest_small m hq K2 he; exists N0 => N M h1 h2; apply: (Rle_lt_trans _ _ _ _ (h N M h1 h2)).
have [q0 q1] := hq; set r := rest _ _ _ _ _ _ _ _ _ _.
have r2 : (0 <= r <= 2)%Re.
  have p n : (0 <= rate th e u k ra rb L ^ n <= 1)%Re by split; [exact: pow_le|have := pow_incr _ 1%Re n (conj q0 (Rlt_le _ _ q1)); rewrite pow1].
  rewrite /r /rest; have := p (Nat.sub (Nat.add N 1) (lmin m)); have := p (Nat.sub (Nat.add M 1) (lmin m)); move: (_ ^ _)%Re (_ ^ _)%Re => x y; lra.
have s0 := sqrt_pos r; have ss := sqrt_sqrt _ (proj1 r2).
have s2 : (sqrt r <= 2)%Re by rewrite -[2%Re]sqrt_square; [apply: sqrt_le_1_alt; lra|lra].
have : (r <= 2 * sqrt r)%Re by nra.
nra.
Qed.
Lemma exact_lndet c m1 m2 ra rb e u m k s1 s2 conv N M : c_1 c = Solid m1 ra -> c_2 c = Solid m2 rb -> has (c_med c) e u -> (0 < ra)%Re -> (0 < rb)%Re -> (0 < c_L c)%Re -> (0 < k)%Re ->
  contrast s1 m1 e u k -> contrast s2 m2 e u k -> (conv < 1)%Re -> some_orders (truncated c N M) m ->
  exists F, forall fuel, (F <= fuel)%N -> rt_lndet exact_bessels trans_bessels (truncated c N M) fuel conv m [:: k] = Some (Val [:: ln_abs_det (1%:M - trip exact_bessels (truncated c N M) m k)]).
Proof.
move=> h1 h2 hm ha hb hL hk g1 g2 hc ho.
have [[A eA] [B eB]] := @exact_val (truncated c N M) m1 m2 ra rb k e u h1 h2 (contrast_solid g1) (contrast_solid g2) hm ha hb hk.
exact: (lndet_total eA eB hm hL hk (proj1 (proj2 ho)) (proj2 (proj2 ho)) hc).
Qed.
Lemma ln_near (w eps : R) : w <> 0%Re -> (0 < eps)%Re -> exists del, (0 < del)%Re /\ forall x, (Rabs (x - w) < del)%Re -> x <> 0%Re /\ (Rabs (ln (Rabs x) - ln (Rabs w)) < eps)%Re.
Proof.
move=> hw he; have pw : (0 < Rabs w)%Re by exact: Rabs_pos_lt.
have ct : continuity_pt ln (Rabs w) by apply: derivable_continuous_pt; exists (/ Rabs w)%Re; exact: derivable_pt_lim_ln.
have [al [al0 h]] := ct eps he.
exists (Rmin al (Rabs w)); split; first exact: Rmin_pos.
move=> x hx; have x1 := Rlt_le_trans _ _ _ hx (Rmin_l _ _); have x2 := Rlt_le_trans _ _ _ hx (Rmin_r _ _).
have nx : x <> 0%Re by move=> e0; move: x2; rewrite e0 Rminus_0_l Rabs_Ropp; lra.
split=> //; case: (Req_dec (Rabs x) (Rabs w)) => [->|ne]; first by rewrite Rminus_diag_eq // Rabs_R0.
apply: (h (Rabs x)); split; first by split=> // eq; apply: ne.
exact: (Rle_lt_trans _ _ _ (Rabs_triang_inv2 x w) x1).
Qed.

(** ** spheres on opposite sides: the values returned converge from below *)
Theorem C86_opposite : forall c m1 m2 ra rb e u m k s th conv, c_1 c = Solid m1 ra -> c_2 c = Solid m2 rb -> c_ext c = true -> has (c_med c) e u -> (0 < ra)%Re -> (0 < rb)%Re -> (0 < c_L c)%Re -> (0 < k)%Re ->
  contrast s m1 e u k -> contrast (- s) m2 e u k -> (0 < th <= 1)%Re -> (rate th e u k ra rb (c_L c) < 1)%Re -> (0 <= m)%Z -> (conv < 1)%Re ->
  let B := reach th e u m k ra rb (c_L c) in
  exists w, (0 <= w <= B)%Re /\ forall N M, some_orders (truncated c N M) m -> exists v F, (forall fuel, (F <= fuel)%N -> rt_lndet exact_bessels trans_bessels (truncated c N M) fuel conv m [:: k] = Some (Val [:: Fin v])) /\
    (w - B * rest th e u m k ra rb (c_L c) N M <= v <= w)%Re /\ (0 <= v)%Re.
Proof.
move=> c m1 m2 ra rb e u m k s th conv h1 h2 hx hm ha hb hL hk g1 g2 hth hq m0 hc B.
pose P N M := \det (1%:M - trip exact_bessels (truncated c N M) m k).
have sN : s * - s = -1 by rewrite mulrN (contrast_sq g1).
have eP N M : some_orders (truncated c N M) m -> P N M = \det (1%:M + part c m k s (- s) N M *m (part c m k s (- s) N M)^T).
  by move=> o; rewrite /P; have [-> _] := sides_gram h1 h2 hx hm ha hb hk g1 g2 o; rewrite sN scaleN1r opprK.
have st N M N' M' o a b := @C_step c m1 m2 ra rb e u m k s (- s) th h1 h2 hx hm ha hb hL hk g1 g2 hth hq N M N' M' o a b.
have Bp : (0 < B)%Re by exact: (B_pos m hm ha hb hL hk hth hq).
have o0 : some_orders (truncated c (lmin m) (lmin m)) m by rewrite /some_orders /truncated /= /lmin; lia.
have bd N M : some_orders (truncated c N M) m -> (1 <= P N M)%Re /\ (0 <= ln (P N M) <= B)%Re.
  move=> o; have [_ [b1 b2] _ _] := st N M N M o (le_n N) (le_n M); rewrite -(eP _ _ o) in b1 b2.
  split=> //; split; first by rewrite -ln_1; apply: ln_le => //; lra.
  by rewrite -[B]ln_exp; apply: ln_le => //; lra.
have step N M N' M' : some_orders (truncated c N M) m -> (N <= N')%coq_nat -> (M <= M')%coq_nat -> (- ln (P N' M') <= - ln (P N M) <= - ln (P N' M') + B * rest th e u m k ra rb (c_L c) N M)%Re.
  move=> o a b; have o' := cut_orders a b o; have [_ _ [c1 c2] _] := st N M N' M' o a b; rewrite -(eP _ _ o) -(eP _ _ o') in c1 c2.
  have [p1 _] := bd _ _ o; have l1 : (ln (P N M) <= ln (P N' M'))%Re by apply: ln_le => //; lra.
  have l2 : (ln (P N' M') <= ln (P N M) + B * rest th e u m k ra rb (c_L c) N M)%Re.
    rewrite -[X in (_ + X)%Re]ln_exp -ln_mult; [apply: ln_le => //; lra|lra|exact: exp_pos].
  lra.
have [w hw] := pair_limit o0 (fun N M N' M' (o : some_orders (truncated c N M) m) a b => cut_orders a b o) step.
exists (- w)%Re; split.
- split; first by have [_ [z1 _]] := bd _ _ o0; have [z2 _] := hw _ _ o0; lra.
  apply: le_epsilon => eps he; have [n0 hn] := rest_lin m (q_ok hq) Bp he; pose N := (n0 + lmin m)%coq_nat.
  have o : some_orders (truncated c N N) m by rewrite /some_orders /truncated /= /N /lmin; lia.
  have nN : (n0 <= N)%coq_nat by rewrite /N; lia.
  by have [_ [_ z1]] := bd _ _ o; have [_ z2] := hw _ _ o; have := hn N N nN nN; lra.
- move=> N M o; have [p1 [p2 p3]] := bd _ _ o; have [F hF] := exact_lndet h1 h2 hm ha hb hL hk g1 g2 hc o.
  exists (ln (P N M)), F; split; last by have := hw _ _ o; lra.
  move=> fuel hf; rewrite hF // /ln_abs_det -/(P N M); case: eqP => [e0|_]; first by rewrite e0 zE in p1; lra.
  by rewrite Rabs_pos_eq //; lra.
Qed.
Print Assumptions C86_opposite.

(** ** all spheres that do not overlap, in a non-magnetic medium *)
Theorem C86_disjoint : forall c m1 m2 ra rb e u m k s1 s2 conv, c_1 c = Solid m1 ra -> c_2 c = Solid m2 rb -> c_ext c = true -> has (c_med c) e u -> (0 < ra)%Re -> (0 < rb)%Re -> (ra + rb < c_L c)%Re -> (0 < k)%Re -> u k = 1%Re ->
  contrast s1 m1 e u k -> contrast s2 m2 e u k -> (0 <= m)%Z -> (conv < 1)%Re ->
  let q := (((ra + rb) / c_L c) ^ 2)%Re in let D N M := \det (1%:M - trip exact_bessels (truncated c N M) m k) in
  exists w K, [/\ forall N M, some_orders (truncated c N M) m -> (Rabs (D N M - w) <= K * (q ^ (N + 1 - lmin m) + q ^ (M + 1 - lmin m)))%Re,
    w <> 0%Re -> forall eps, (0 < eps)%Re -> exists N0, forall N M, (N0 <= N)%coq_nat -> (N0 <= M)%coq_nat -> exists v F,
      (forall fuel, (F <= fuel)%N -> rt_lndet exact_bessels trans_bessels (truncated c N M) fuel conv m [:: k] = Some (Val [:: Fin v])) /\ (Rabs (v - ln (Rabs w)) < eps)%Re &
    w = 0%Re -> forall b, exists N0, forall N M, (N0 <= N)%coq_nat -> (N0 <= M)%coq_nat -> exists x F,
      (forall fuel, (F <= fuel)%N -> rt_lndet exact_bessels trans_bessels (truncated c N M) fuel conv m [:: k] = Some (Val [:: x])) /\ (x = NInf \/ exists v, x = Fin v /\ (v < b)%Re)].
Proof.
move=> c m1 m2 ra rb e u m k s1 s2 conv h1 h2 hx hm ha hb hab hk hu g1 g2 m0 hc q D; have [_ [hp _]] := hm; have [pe _] := hp k hk.
have hL : (0 < c_L c)%Re by lra.
have th1 : (0 < 1 <= 1)%Re by lra.
have eq : rate 1 e u k ra rb (c_L c) = q by exact: rate_gap.
have iL : (0 < / c_L c)%Re by exact: Rinv_0_lt_compat.
have hr : (rate 1 e u k ra rb (c_L c) < 1)%Re.
  rewrite eq /q; have p0 : (0 <= (ra + rb) / c_L c)%Re by apply: Rmult_le_pos; lra.
  have p1 : ((ra + rb) / c_L c < 1)%Re by apply: (Rmult_lt_reg_r (c_L c)) => //; rewrite /Rdiv Rmult_assoc Rinv_l; lra.
  simpl; nra.
have hr' := @q_ok c ra rb e u k 1%Re hr.
have Bp : (0 < reach 1 e u m k ra rb (c_L c))%Re by exact: (B_pos m hm ha hb hL hk th1 hr).
set B := reach 1 e u m k ra rb (c_L c) in Bp.
have [w hw] := C86_determinants h1 h2 hx hm ha hb hL hk g1 g2 th1 hr m0; rewrite -/B in hw.
have Kp : (0 < B * exp (3 * B))%Re by apply: Rmult_lt_0_compat => //; exact: exp_pos.
have near del : (0 < del)%Re -> exists N0, forall N M, (N0 <= N)%coq_nat -> (N0 <= M)%coq_nat -> some_orders (truncated c N M) m /\ (Rabs (D N M - w) < del)%Re.
  move=> hd; have [n0 hn] := rest_lin m hr' Kp hd; exists (n0 + lmin m)%coq_nat => N M hN hM.
  have o : some_orders (truncated c N M) m by rewrite /some_orders /truncated /=; move: hN hM; rewrite /lmin; lia.
  split; first exact: o.
  by apply: (Rle_lt_trans _ _ _ (hw N M o)); apply: hn; lia.
exists w, (B * exp (3 * B))%Re; split.
- by move=> N M o; have := hw N M o; rewrite /rest eq.
- move=> w0 eps he; have [del [d0 hd]] := ln_near w0 he; have [N0 hN] := near del d0; exists N0 => N M a b.
  have [o x1] := hN N M a b; have [x0 x2] := hd _ x1; have [F hF] := exact_lndet h1 h2 hm ha hb hL hk g1 g2 hc o.
  exists (ln (Rabs (D N M))), F; split=> // fuel hf; rewrite hF // /ln_abs_det -/(D N M); case: eqP => [e0|_] //.
- move=> w0 b; have [N0 hN] := near (exp b) (exp_pos b); exists N0 => N M a b'.
  have [o x1] := hN N M a b'; have [F hF] := exact_lndet h1 h2 hm ha hb hL hk g1 g2 hc o.
  exists (ln_abs_det (1%:M - trip exact_bessels (truncated c N M) m k)), F; split=> //.
  rewrite /ln_abs_det -/(D N M); case: eqP => [e0|ne]; [by left|right].
  exists (ln (Rabs (D N M))); split=> //; rewrite -[b]ln_exp; apply: ln_increasing; first by apply: Rabs_pos_lt; exact: ne.
  by move: x1; rewrite w0 Rminus_0_r.
Qed.
Print Assumptions C86_disjoint.

(** ** Non-vacuity: a gold sphere and a perfect reflector one unit apart; a bubble near a perfect reflector in water *)
Example C86_gold : let D N M := \det (1%:M - trip exact_bessels (truncated gold_in_vacuum N M) 1 2) in
  exists w K, forall N M, some_orders (truncated gold_in_vacuum N M) 1 -> (Rabs (D N M - w) <= K * ((((1 + 2) / 4) ^ 2) ^ (N + 1 - 1) + (((1 + 2) / 4) ^ 2) ^ (M + 1 - 1)))%Re.
Proof.
move=> D; have p2 : (0 < 2)%Re by lra.
have [g1 [g2 _]] := C61_gold p2.
have [||||||w [K [h _ _]]] := @C86_disjoint gold_in_vacuum _ _ 1%Re 2%Re _ _ 1%Z 2%Re 1 1 1e-10%Re erefl erefl erefl vacuum_has _ _ _ p2 _ g1 g2; try (rewrite /=; lra); try by [].
by exists w, K.
Qed.
Example C86_bubble : exists w B, (0 <= w <= B)%Re /\ forall N M, (1 <= N)%coq_nat -> (1 <= M)%coq_nat -> exists v F,
  (forall fuel, (F <= fuel)%N -> rt_lndet exact_bessels trans_bessels (truncated bubble_in_water N M) fuel 1e-10 1 [:: 2%Re] = Some (Val [:: Fin v])) /\ (0 <= v <= w)%Re.
Proof.
have p2 : (0 < 2)%Re by lra.
have [g1 [g2 _]] := C61_bubble p2; have hw := insulator_has _ _ _ water_insulator.
have hr : (rate 1 (eps_spec e_Water) (mu_val None) 2 1 2 (c_L bubble_in_water) < 1)%Re.
  have [_ [hp _]] := hw; have [pe _] := hp 2%Re p2.
  by rewrite rate_gap //= ; lra.
have [||||||w [w0 h]] := @C86_opposite bubble_in_water _ _ 1%Re 2%Re _ _ 1%Z 2%Re (-1)%Re 1%Re 1e-10%Re erefl erefl erefl hw _ _ _ p2 g1 g2 _ hr; try (rewrite /=; lra); try by [].
exists w; eexists; split; first exact: w0.
move=> N M a b; have o : some_orders (truncated bubble_in_water N M) 1 by rewrite /some_orders /=; lia.
by have [v [F [hF [[_ v1] v2]]]] := h N M o; exists v, F.
Qed.
